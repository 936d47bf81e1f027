(** * Specification: the unbiased correlation estimate. *)
From mathcomp Require Import all_ssreflect all_algebra.
Set Implicit Arguments.
Unset Strict Implicit.
Unset Printing Implicit Defensive.
Import GRing.Theory.
Local Open Scope ring_scope.

Section Spec.
Variable R : fieldType.

(** [1/(T-n) sum_{t=0}^{T-n-1} a(t) b(t+n)] *)
Definition corr_estimate (T : nat) (a b : nat -> R) (n : nat) : R :=
  (T - n)%:R^-1 * \sum_(t < T - n) a t * b (t + n)%N.

(** Row [i] of an array as a function of time (0 outside). *)
Definition at_time p T (a : 'M[R]_(p, T)) (i : 'I_p) (t : nat) : R :=
  if insub t is Some t' then a i t' else 0.

(** Matrix of estimates of every pair of components. *)
Definition corr_matrix p q T (a : 'M[R]_(p, T)) (b : 'M[R]_(q, T)) (n : nat) : 'M[R]_(p, q) :=
  \matrix_(i, j) corr_estimate T (at_time a i) (at_time b j) n.

End Spec.
