(** * Specification vocabulary for the estimator: averages over pooled samples, least
    squares. *)
From mathcomp Require Import all_ssreflect all_algebra.
Set Implicit Arguments.
Unset Strict Implicit.
Unset Printing Implicit Defensive.
Import GRing.Theory.
Local Open Scope ring_scope.

Section Spec.
Variables (R : realFieldType) (S : Type).

(** Mean over a collection of samples. *)
Definition sample_mean (V : lmodType R) (f : S -> V) (xs : seq S) : V :=
  (size xs)%:R^-1 *: \sum_(s <- xs) f s.

(** Mean of the products [e_i f_j]. *)
Definition mean_product p q (e : S -> 'rV[R]_p) (f : S -> 'rV[R]_q) (xs : seq S) : 'M[R]_(p, q) :=
  \matrix_(i, j) ((size xs)%:R^-1 * \sum_(s <- xs) e s 0 i * f s 0 j).

(** Squared distance between the observable and a linear combination of basis
    functions, summed over samples and components. *)
Definition sq_residual p q (e : S -> 'rV[R]_p) (obs : S -> 'rV[R]_q) (c : 'M[R]_(p, q)) (xs : seq S) : R :=
  \sum_(s <- xs) \sum_(l < q) (obs s 0 l - \sum_(j < p) e s 0 j * c j l) ^+ 2.

(** The residual is orthogonal to every basis function. *)
Definition residual_orthogonal p q (e : S -> 'rV[R]_p) (obs : S -> 'rV[R]_q) (c : 'M[R]_(p, q)) (xs : seq S) :=
  forall (i : 'I_p) (l : 'I_q),
    \sum_(s <- xs) e s 0 i * (obs s 0 l - \sum_(j < p) e s 0 j * c j l) = 0.

End Spec.

(** Correlations of several trajectories: the estimate of each one, weighted by its
    length. *)
From Verif Require Import CorrelationSpec.
Section PooledCorrelation.
Variables (R : realFieldType) (S : Type).

Definition traj_corr p q (e : S -> 'rV[R]_p) (f : S -> 'rV[R]_q) (t : seq S) (n : nat) : 'M[R]_(p, q) :=
  \matrix_(i, j) corr_estimate (size t) (nth 0 [seq e s 0 i | s <- t]) (nth 0 [seq f s 0 j | s <- t]) n.

Definition pooled_corr p q (e : S -> 'rV[R]_p) (f : S -> 'rV[R]_q) (trajs : seq (seq S)) (n : nat) : 'M[R]_(p, q) :=
  \sum_(t <- trajs) ((size t)%:R / (size (flatten trajs))%:R) *: traj_corr e f t n.

End PooledCorrelation.
