(** * Properties C29 and C30: description of the data, projection on the range. *)
From mathcomp Require Import all_ssreflect all_algebra.
From mathcomp Require Import complex.
From Verif Require Import Base Model Estimator CorrsLoop Describe DescribeProofs RangeProj RangeProjProofs.
Set Implicit Arguments.
Unset Strict Implicit.
Unset Printing Implicit Defensive.
Import Order.TTheory GRing.Theory Num.Theory.
Local Open Scope ring_scope.

(** ** C29 *)

(** Count, minimum, maximum and mean are those of the pooled samples. *)
Theorem C29_pooled_partial (R : realFieldType) (trajs : seq (seq R)) :
  (0 < size trajs)%N -> (forall t, t \in trajs -> (0 < size t)%N) ->
  exists2 d, describe_data trajs = Ok d &
    let all := flatten trajs in
    [/\ nobs d = size all, is_min (dmin d) all, is_max (dmax d) all, dmean d = mean_of all
      & dvar d = (if size (head [::] trajs) == 1%N then None else Some (variance_of (head [::] trajs)))].
Proof. by move=> s0 H; have [d E [[*] *]] := describe_data_ok s0 H; exists d. Qed.
Print Assumptions C29_pooled_partial.

(** Independent of the order of the trajectories. *)
Theorem C29_order_partial (R : realFieldType) (trajs trajs' : seq (seq R)) d d' :
  (forall t, t \in trajs -> (0 < size t)%N) -> perm_eq trajs trajs' ->
  describe_data trajs = Ok d -> describe_data trajs' = Ok d' ->
  [/\ nobs d = nobs d', dmin d = dmin d', dmax d = dmax d' & dmean d = dmean d'].
Proof. exact: describe_data_perm. Qed.
Print Assumptions C29_order_partial.

(** One trajectory: the variance too. *)
Theorem C29_single_partial (R : realFieldType) (t : seq R) : (1 < size t)%N ->
  exists2 d, describe_data [:: t] = Ok d & dvar d = Some (variance_of t).
Proof.
move=> s1; have [||d E [_ V]] := @describe_data_ok R [:: t] => //.
  by move=> u; rewrite inE => /eqP ->; apply: ltnW.
by exists d => //; rewrite V /=; case: eqP s1 => // ->.
Qed.
Print Assumptions C29_single_partial.

(** Finding F17.  The variance is that of the first trajectory. *)
Theorem C29_variance_refuted (R : realFieldType) : exists (trajs : seq (seq R)) d,
  [/\ forall t, t \in trajs -> (1 < size t)%N, describe_data trajs = Ok d
    & dvar d <> Some (variance_of (flatten trajs))].
Proof. exact: variance_refuted. Qed.
Print Assumptions C29_variance_refuted.

Example C29_example (R : realFieldType) : exists2 d,
  describe_data (far_apart R) = Ok d & nobs d = 4%N /\ dmean d = 6%:R.
Proof.
have [||d E [n _ _ m _]] := @C29_pooled_partial R (far_apart R) => //.
  by move=> t; rewrite !inE => /orP[] /eqP ->.
exists d => //; split=> //; rewrite m /mean_of /= !big_cons big_nil add0r addr0 -!natrD.
by rewrite (_ : (2 + (10 + 12) = 4 * 6)%N) // natrM mulKf ?pnatr_eq0.
Qed.

(** ** C30 *)

Theorem C30_projection_partial (R : realFieldType) (N : nat) (B0 U : 'M[R]_N) (S : 'rV[R]_N)
    (tol : R) (dim_x : nat) (p : projection R N) :
  eigh_spec B0 U S -> 0 <= tol -> set_range_projection dim_x tol U S = Ok p ->
  let P := p_mat p in let B := P *m B0 *m P^T in
  [/\ P *m P^T = 1%:M, B \in unitmx,
      forall x : 'cV[R]_N, B0 *m x = 0 -> P *m x = 0,
      forall x : 'rV[R]_N, `|(x *m (B0 - P^T *m B *m P) *m x^T) 0 0| <= tol * normsq x
    & (forall i, S 0 i <= tol -> S 0 i = 0) ->
      B0 = P^T *m B *m P /\ forall x : 'cV[R]_N, (P *m x = 0 <-> B0 *m x = 0)].
Proof. exact: projection_full. Qed.
Print Assumptions C30_projection_partial.

(** The default tolerance is one the previous theorem accepts. *)
Theorem C30_default_tolerance (R : realFieldType) (N : nat) (eps : R) (S : 'rV[R]_N) :
  0 <= eps -> (forall i, 0 <= S 0 i) -> 0 <= rank_tolerance None eps S.
Proof.
move=> e0 S0; rewrite /rank_tolerance; apply: mulr_ge0 => //; apply: mulr_ge0; last exact: ler0n.
by elim/big_ind: _ => // x y x0 y0; rewrite le_maxr x0.
Qed.
Print Assumptions C30_default_tolerance.

(** The lag-zero correlation used by the inversion after the projection. *)
Theorem C30_correlations_partial (R : rcfType) (o N : nat) (cd : corrs_data R N o) (U : 'M[R]_N)
    (S : 'rV[R]_N) (tol : R) (dim_x : nat) (p : projection R N) :
  (0 < size (bkbk cd))%N -> eigh_spec (bkbk cd)`_0 U S -> 0 <= tol ->
  set_range_projection dim_x tol U S = Ok p ->
  (bkbk (project_corrs (p_mat p) cd))`_0 \in unitmx.
Proof.
move=> s0 sp t0 E; rewrite /= (nth_map 0) //.
by have [_ -> _ _ _] := projection_full sp t0 E.
Qed.
Print Assumptions C30_correlations_partial.

(** When the basis is rejected. *)
Theorem C30_rejected_partial (R : realFieldType) (N dim_x : nat) (tol : R) (U : 'M[R]_N) (S : 'rV[R]_N) e :
  set_range_projection dim_x tol U S = Err e <->
  [/\ e = Documented, N = dim_x, (0 < N)%N & forall i, S 0 i <= tol].
Proof. exact: projection_fails. Qed.
Print Assumptions C30_rejected_partial.

(** Finding F18.  A basis of rank zero is not rejected in general. *)
Theorem C30_rank_zero_refuted (R : realFieldType) : exists (B0 U : 'M[R]_2) S p,
  [/\ eigh_spec B0 U S, B0 = 0, set_range_projection 1 0 U S = Ok p & p_rank p = 0%N].
Proof. exact: rank_zero_refuted. Qed.
Print Assumptions C30_rank_zero_refuted.

Example C30_example (R : realFieldType) :
  eigh_spec (rot R *m diag_mx (rotS R) *m (rot R)^T) (rot R) (rotS R) /\
  exists p, set_range_projection 1 1 (rot R) (rotS R) = Ok p /\ p_rank p = 1%N.
Proof. by split; [exact: rot_spec | exact: rot_projected]. Qed.
