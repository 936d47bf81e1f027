(** * Evaluation of a Prony series: VolterraBasis/fit_prony.py, clean_eigenvalues,
    prony_fit_times_serie and prony_series_eval.

    Real numbers: a real closed field [R]; complex numbers: [R[i]].  Not computed here, and
    taken as parameters (what they satisfy is said in /PronyEvalSpec.v/): [np.linalg.eig]
    ([eig]), the principal complex logarithm [np.log] ([lg]) and [scipy.linalg.expm] ([expm]).
    The result of [eig] is the list of the eigenvalues, each with its column of [vect], and
    the type of the arrays: numpy returns real arrays ([false]) when all the eigenvalues are
    real and complex arrays ([true]) otherwise.  nan and infinities are [ZeroDivision]. *)
From mathcomp Require Import all_ssreflect all_algebra.
From mathcomp Require Import complex.
From Verif Require Import Base Prony.
Set Implicit Arguments.
Unset Strict Implicit.
Unset Printing Implicit Defensive.
Import Order.TTheory GRing.Theory Num.Theory.
Local Open Scope ring_scope.
Local Open Scope complex_scope.

Section Eval.
Variable R : rcfType.
Local Notation C := R[i].
Local Notation Re := (@complex.Re R).
Local Notation Im := (@complex.Im R).
Variable lg : C -> C.
(** 1e-15 *)
Variable tol : R.

Definition cmod (z : C) : R := Num.sqrt (Re z ^+ 2 + Im z ^+ 2).

Definition eigen := (C * seq C)%type.
Definition lam (e : seq eigen) j : C := (nth (0, [::]) e j).1.
Definition vec (e : seq eigen) i j : C := (nth (0, [::]) e j).2`_i.

(** fit_prony.py:100-102: the columns kept, and of each the first rows ([vect] below). *)
Definition kept (remove : bool) (e : seq eigen) : seq eigen :=
  if remove then [seq p <- e | cmod p.1 <= 1] else e.

(** [lamb < 0]: numpy orders complex numbers lexicographically. *)
Definition neg (z : C) : bool := (Re z < 0) || ((Re z == 0) && (Im z < 0)).

(** fit_prony.py:105 *)
Definition dupl (z : C) : bool := (`|Im z| < tol) && neg z.
Definition dups (e : seq eigen) : seq nat := [seq j <- iota 0 (size e) | dupl (lam e j)].

(** np.log(lamb), fit_prony.py:107: minus infinity at 0, nan on the negative numbers of a
    real array. *)
Definition nplog (cplx : bool) (z : C) : res C :=
  if z == 0 then Err ZeroDivision
  else if ~~ cplx && (Re z < 0) then Err ZeroDivision
  else Ok (lg z).

(** np.sign(np.imag(log_lamp)): the imaginary part of a real array is zero, nan included. *)
Definition sgn (cplx : bool) (dt : R) (z : C) : C := if cplx then (Num.sg (Im (lg z / dt%:C)))%:C else 0.

(** fit_prony.py:109-113.  [new_vect[m:, :m][:, dupl] = ...] writes in the view. *)
Definition vect m (e : seq eigen) : 'M[C]_m := \matrix_(i, j) vec e i j.

Definition new_vect (cplx : bool) (dt : R) (e : seq eigen) : 'M[C]_(size e + size (dups e)) :=
  let d := dups e in
  block_mx (vect (size e) e)
           (\matrix_(i < size e, r < size d) vec e i (nth 0%N d r))
           (\matrix_(r < size d, j < size e)
              if val j == nth 0%N d r then 'i%C * sgn cplx dt (lam e j) else 0)
           (\matrix_(r < size d, q < size d)
              if r == q then - 'i%C * sgn cplx dt (lam e (nth 0%N d r)) else 0).

(** clean_eigenvalues, fit_prony.py:91-118; [cplx, e] is the result of [np.linalg.eig(J)]. *)
Definition clean (cplx : bool) (e0 : seq eigen) (dt : R) (remove : bool) : res {m : nat & 'M[R]_m} :=
  let e := kept remove e0 in
  let d := dups e in
  let W := new_vect cplx dt e in
  if W \notin unitmx then Err Singular else
  if dt == 0 then Err ZeroDivision else
  let! l := mapM (fun p : eigen => let! z := nplog cplx p.1 in Ok (z / dt%:C)) e in
  let l := l ++ [seq conjc l`_j | j <- d] in
  Ok (existT _ _ (map_mx Re (W *m diag_mx (\row_j l`_j) *m invmx W))).

Variable expm : forall m, 'M[R]_m -> 'M[R]_m.

(** prony_series_eval, fit_prony.py:179-197, [times] with one axis: [squeeze] leaves no axis
    when there is one time. *)
Definition series_eval (times : seq R) (y0 : R) (A : {m : nat & 'M[R]_m}) : res (seq R) :=
  if size times == 1%N then Err OutOfBounds
  else mapM (fun t => if insub 0%N : option 'I_(projT1 A) is Some i
                      then Ok (y0 * expm (t *: projT2 A) i i) else Err OutOfBounds) times.

(** prony_fit_times_serie, fit_prony.py:152-176.  [svd]: np.linalg.svd, one triple per
    size of matrix. *)
Variable eps : R.
Variable svd : forall n, 'M[R]_n.+1 -> 'M[R]_n.+1 * seq R * 'M[R]_n.+1.
Variable eig : forall n, 'M[R]_n -> bool * seq eigen.

Definition fit_serie (data : seq R) (dt : R) (thres : option R) (N_keep : option nat) (remove : bool) :
    res (R * {m : nat & 'M[R]_m}) :=
  let y := [seq x / data`_0 | x <- data] in
  if size data == 0%N then Err OutOfBounds
  else if data`_0 == 0 then Err ZeroDivision
  else
  let: (U, s, Vh) := svd (hankel y (half_len y)) in
  let! J := get_jacobi eps (y := y) U s Vh thres N_keep in
  let: (cplx, e) := eig (projT2 J) in
  let! A := clean cplx e dt remove in
  Ok (data`_0, A).

End Eval.
