(** * Prony series of a whole kernel: VolterraBasis/fit_prony.py, prony_fit_kernel and
    prony_series_kernel_eval.

    A kernel of shape (times, dim_basis, dim_x) is given by its components, as in /FitMemory.v/.
    The times are the list left by [np.squeeze]; one time leaves an array without axis. *)
From mathcomp Require Import all_ssreflect all_algebra.
From mathcomp Require Import complex.
From Verif Require Import Base Prony PronyEval FitMemory.
Set Implicit Arguments.
Unset Strict Implicit.
Unset Printing Implicit Defensive.
Import Order.TTheory GRing.Theory Num.Theory.
Local Open Scope ring_scope.

Section Kernel.
Variable R : rcfType.
Local Notation C := R[i].
Variables (lg : C -> C) (tol eps : R).
Variable svd : forall n, 'M[R]_n.+1 -> 'M[R]_n.+1 * seq R * 'M[R]_n.+1.
Variable eig : forall n, 'M[R]_n -> bool * seq (eigen R).
Variable expm : forall m, 'M[R]_m -> 'M[R]_m.

Definition series := (R * {m : nat & 'M[R]_m})%type.

(** prony_fit_kernel, fit_prony.py:200-225; [None] is the initial [0], [remove] keeps its
    default. *)
Definition fit_kernel (times : seq R) (K : kernel R) (thres : option R) (N_keep : option nat) :
    res (seq (seq (option series))) :=
  let! t1 := rd times 1 in
  let! t0 := rd times 0 in
  let dt := t1 - t0 in
  let list_A := nseq (k_x K) (nseq (k_basis K) None) in
  for_ 0 (k_x K) (fun d list_A =>
    for_ 0 (k_basis K) (fun k list_A =>
      let! A := fit_serie lg tol eps svd eig (k_val K k d) dt thres N_keep true in
      set2 list_A d k (Some A)) list_A) list_A.

(** [list_A[d][k][0] * scipy.linalg.expm(t * list_A[d][k][1])[0, 0]] *)
Definition entry (A : option series) (t : R) : res R :=
  if A is Some (y0, B) then
    if insub 0%N : option 'I_(projT1 B) is Some i then Ok (y0 * expm (t *: projT2 B) i i)
    else Err OutOfBounds
  else Err TypeError.

(** prony_series_kernel_eval, fit_prony.py:228-248. *)
Definition kernel_eval (times : seq R) (list_A : seq (seq (option series))) : res (kernel R) :=
  if size times == 1%N then Err OutOfBounds else
  let dim_x := size list_A in
  let! row0 := rd list_A 0 in
  let dim_basis := size row0 in
  let fit := fun _ _ => nseq (size times) 0 in
  let! fit := for_ 0 dim_x (fun d fit =>
    for_ 0 dim_basis (fun k fit =>
      for_ 0 (size times) (fun i (fit : nat -> nat -> seq R) =>
        let! t := rd times i in
        let! row := rd list_A d in
        let! A := rd row k in
        let! v := entry A t in
        let! c := wr (fit k d) i v in
        Ok (fun k' d' => if (k' == k) && (d' == d) then c else fit k' d')) fit) fit) fit in
  Ok (Kern dim_basis dim_x fit).

End Kernel.
