(** * What [compute_kernel] must return, method by method: discrete equations between the
    correlations [bb] (basis, basis), [bd] (basis, orthogonal observable), their
    time-derivative versions [db], [dd], and the returned samples [ker]. *)
From mathcomp Require Import all_ssreflect all_algebra.
From Verif Require Import Quadrature FKernelSpec.
Set Implicit Arguments.
Unset Strict Implicit.
Unset Printing Implicit Defensive.
Import GRing.Theory.
Local Open Scope ring_scope.

Section Spec.
Variables (R : realFieldType) (k o : nat).
Implicit Types (dt : R) (bb dd : seq 'M[R]_k) (bd db K ker : seq 'M[R]_(k, o)).

(** Value at time zero: the one given, else the solution of [B(0) K(0) = B'(0)]. *)
Definition initial_value bb db (given : option 'M[R]_(k, o)) (k1 : 'M[R]_(k, o)) : Prop :=
  if given is Some k0 then k1 = k0 else bb`_0 *m k1 = db`_0.

(** The midpoint equation that is solved (F4: correlations at the even lags). *)
Definition solves_coded_midpoint dt bb bd K : Prop :=
  forall i, (i < maxn 1 ((size bb).-1 %/ 2))%N ->
    (2 * dt) *: (\sum_(j < i) bb`_(2 * (i - j)) *m K`_j + bb`_1 *m K`_i) = - bd`_(2 * i + 1).

Definition every_third (V : zmodType) (a b : seq V) : Prop :=
  size b = ((size a + 2) %/ 3)%N /\ forall i, b`_i = a`_(3 * i).

(** [1/4, 1/2, 1/4] average *)
Definition smoothed K ker : Prop :=
  forall i, (i.+1 < size ker)%N -> 4%:R *: ker`_i.+1 = K`_i + 2%:R *: K`_i.+1 + K`_i.+2.
End Spec.
