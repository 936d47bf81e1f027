(** * Integrals of the kernel: fit_memory.py:19-40 (asymptotic_fit_integral,
    markovian_friction) and models.py:348-363
    (laplace_transform_kernel).

    [scipy.integrate.simpson] with abscissae is modelled as of scipy 1.11 (composite rule on pairs of
    unequal intervals, correction of Cartwright for an even number of samples), divisions by zero
    giving zero as there.  Later versions refuse the positional abscissae of both callers. *)
From mathcomp Require Import all_ssreflect all_algebra.
From Coq Require Import String.
From Verif Require Import Base FitMemory.
Set Implicit Arguments.
Unset Strict Implicit.
Unset Printing Implicit Defensive.
Import Order.TTheory GRing.Theory Num.Theory.
Local Open Scope ring_scope.

Section Simpson.
Variable R : realFieldType.
Implicit Types (x y : seq R).

Definition div0 (a b : R) : R := if b == 0 then 0 else a / b.

(** One pair of intervals of [_basic_simpson]. *)
Definition pair_simpson (x0 x1 x2 y0 y1 y2 : R) : R :=
  let h0 := x1 - x0 in
  let h1 := x2 - x1 in
  let hsum := h0 + h1 in
  let hprod := h0 * h1 in
  let h0divh1 := div0 h0 h1 in
  hsum / 6%:R * (y0 * (2 - div0 1 h0divh1) + y1 * (hsum * div0 hsum hprod) + y2 * (2 - h0divh1)).

Definition basic_simpson x y (pairs : nat) : R :=
  \sum_(i < pairs) pair_simpson x`_(2 * i) x`_(2 * i).+1 x`_(2 * i).+2 y`_(2 * i) y`_(2 * i).+1 y`_(2 * i).+2.

(** The last interval, from the last three samples. *)
Definition last_simpson (x0 x1 x2 y0 y1 y2 : R) : R :=
  let h0 := x1 - x0 in
  let h1 := x2 - x1 in
  let alpha := div0 (2 * h1 ^+ 2 + 3%:R * h0 * h1) (6%:R * (h1 + h0)) in
  let beta := div0 (h1 ^+ 2 + 3%:R * h0 * h1) (6%:R * h0) in
  let eta := div0 (h1 ^+ 3) (6%:R * h0 * (h0 + h1)) in
  alpha * y2 + beta * y1 - eta * y0.

Definition simpson y x : res R :=
  let N := size y in
  let! _ := guard (size x == N) ValueError in
  if odd N then Ok (basic_simpson x y N./2)
  else if N is 0 then Err OutOfBounds
  else if N == 2%N then Ok (2^-1 * (x`_1 - x`_0) * (y`_1 + y`_0))
  else Ok (basic_simpson x y N./2.-1
           + last_simpson x`_(N - 3) x`_(N - 2) x`_(N - 1) y`_(N - 3) y`_(N - 2) y`_(N - 1)).

(** What the function returns first: the builtin [type], not a name. *)
Inductive label := BuiltinType | Name of string.

(** fit_memory.py:29-40; [None] is the initial [0]. *)
Definition markovian_friction (t : times R) (K : kernel R) : res (label * seq (seq (option R))) :=
  let popt := nseq (k_x K) (nseq (k_basis K) None) in
  let! popt := for_ 0 (k_x K) (fun d popt =>
    for_ 0 (k_basis K) (fun k popt =>
      let! integral_val := simpson (k_val K k d) (t_val t) in
      set2 popt d k (Some integral_val)) popt) popt in
  Ok (BuiltinType, popt).

(** fit_memory.py:19-26; [curve_fit] on the function [a + b / x] is a parameter. *)
Definition cumulative (data x : seq R) : seq R :=
  mkseq (fun i => \sum_(j < i) (x`_j.+1 - x`_j) * (data`_j + data`_j.+1) / 2%:R) (size x).
Definition asymptotic_fit_integral (curve_fit : seq R -> seq R -> R * R) (x data : seq R) : res (R * R) :=
  let! _ := guard (size data == size x) ValueError in
  Ok (curve_fit (drop (size x %/ 2) x) (drop (size x %/ 2) (cumulative data x))).

(** A labelled array: named coordinates with their number of axes and (flattened first column)
    values, and the components. *)
Record labelled := Labelled { l_coords : seq (string * (nat * seq R)); l_kernel : kernel R }.

Fixpoint coord (l : seq (string * (nat * seq R))) (s : string) : res (nat * seq R) :=
  if l is (s', c) :: l' then if String.eqb s s' then Ok c else coord l' s else Err KeyError.

(** [a[:, 0]] *)
Definition first_column (c : nat * seq R) : res (seq R) :=
  if (1 < c.1)%N then Ok c.2 else Err OutOfBounds.

(** [numpy.linspace]: a negative number of points is refused. *)
Definition linspaceZ (a b : R) (n : int) : res (seq R) :=
  if n is Posz n then Ok (mkseq (fun i => a + (b - a) / n.-1%:R * i%:R) n) else Err ValueError.

(** models.py:348-363 *)
Definition laplace_transform_kernel (ex : R -> R) (dt : R) (trunc_ind : int) (kern : option labelled)
    (s_start : R) (s_end : option R) (n_points : option int) : res (seq R * seq (nat -> nat -> R)) :=
  if kern isn't Some K then Err Documented else
  let n_points := if n_points is Some n then n else trunc_ind in
  let! s_end := (if s_end is Some s then Ok s else if dt == 0 then Err ZeroDivision else Ok (1 / dt)) in
  let! s_range := linspaceZ s_start s_end n_points in
  let laplace := nseq (size s_range) (fun _ _ => 0) in
  let! laplace := for_ 0 (size s_range) (fun n laplace =>
    let! s := rd s_range n in
    let! c := coord (l_coords K) "time" in
    let! t := first_column c in
    let comp k d := [seq ex (- s * p.1) * p.2 | p <- zip t (k_val (l_kernel K) k d)] in
    wr laplace n (fun k d => if simpson (comp k d) t is Ok v then v else 0)) laplace in
  Ok (s_range, laplace).

(** The array stored by compute_kernel, gle_estimation.py:345. *)
Definition stored_kernel (time_ker : seq R) (K : kernel R) : labelled :=
  Labelled [:: ("time_kernel"%string, (1%N, time_ker))] K.
End Simpson.
