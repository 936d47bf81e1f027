(** * A run of the generalised Fokker-Planck workflow: two hat functions, one trajectory. *)
From mathcomp Require Import all_ssreflect all_algebra.
From mathcomp Require Import complex.
From Verif Require Import Base FKernel Model Estimator CorrsLoop Gfpe.
From Verif Require Import EstimatorSpec CorrelationSpec EstimatorProofs EstimatorProofs3 CorrelationProofs CorrsProofs GfpeProofs.
Set Implicit Arguments.
Unset Strict Implicit.
Unset Printing Implicit Defensive.
Import GRing.Theory Num.Theory.
Local Open Scope ring_scope.

Lemma det_mx22 (R : comRingType) (A : 'M[R]_2) : \det A = A 0 0 * A 1 1 - A 0 1 * A 1 0.
Proof.
rewrite (expand_det_row _ 0) !big_ord_recl big_ord0 addr0 /cofactor !det_mx11 !mxE /=.
rewrite !expr0 mul1r expr1 mulN1r mulrN; congr (_ * A _ _ - A _ _ * A _ _); exact: val_inj.
Qed.

Section Hat.
Variable R : realFieldType.
(** x and 1 - x *)
Definition hat (x : 'rV[R]_1) : 'rV[R]_2 := \row_k (if k == 0 then x 0 0 else 1 - x 0 0).
Definition dhat (_ : 'rV[R]_1) : 'M[R]_(2, 1) := \matrix_(k, _) (if k == 0 then 1 else -1).
Definition ones : 'M[R]_(2, 1) := const_mx 1.
Definition hat_traj : seq (sample R 1 1) :=
  [:: (0, 0, 1%:M, 0, 0); (1, 1%:M, - 1%:M, 0, 0); (2%:R, 0, 0, 0, 0)].

Lemma hat_sum_to_one x : hat x *m ones = 1.
Proof. by apply/matrixP => i j; rewrite !mxE !big_ord_recl big_ord0 !mxE /= !mulr1 addr0 addrC subrK !ord1. Qed.

Lemma dhat_ones x : ones^T *m dhat x = 0.
Proof. by apply/matrixP => i j; rewrite !mxE !big_ord_recl big_ord0 !mxE /= !mul1r addr0 subrr. Qed.
End Hat.

Section Run.
Variables (R : rcfType) (w : nat -> R[i]).
Hypothesis wP : forall k, (2 ^ k.+1)%N.-primitive_root (w (2 ^ k.+1)%N).

Lemma hat_run rt so :
  exists2 r, run_gfpe w (@hat R) (@dhat R) [:: hat_traj R] rt so 2 1 MRect None = Ok r & g_force r != 0.
Proof.
rewrite /run_gfpe; set tr := to_gfpe _ _ _; set m := gfpe_model _ _.
have uG : mean_product (Ef m) (Ef m) (flatten tr) \in unitmx.
  rewrite unitmxE det_mx22 unitfE !mxE !big_cons !big_nil /= !mxE /=.
  rewrite !(mulr0, mul0r, subr0, subrr, addr0, add0r, mulr1, mul1r).
  by rewrite mulf_neq0 // ?mulf_neq0 ?invr_eq0 ?pnatr_eq0 // -(natrD R 1 1) pnatr_eq0.
have [[c G] Emf] : exists cG, compute_mean_force m tr = Ok cG by apply/mean_force_success.
set cd := corrs_of so 2 (pooled_corr (Ek m) (Ek m) tr) (pooled_corr (Ek m) (ortho c) tr)
          (pooled_corr (dEk m) (ortho c) tr) (pooled_corr (dEk m) (Ek m) tr).
have Ec : compute_corrs (m := m) w rt so 2 (Some c) tr = Ok cd by apply: compute_corrs_ok => // t /= [<-|].
have uB : 1 *: pooled_corr (Ek m) (Ek m) tr 1 \in unitmx.
  rewrite scale1r unitmxE det_mx22 unitfE /pooled_corr big_cons big_nil /=.
  rewrite !mxE /corr_estimate /= !big_ord_recl !big_ord0 /= !mxE /=.
  rewrite !(mulr0, mul0r, subr0, subrr, addr0, add0r, mulr1, mul1r).
  by rewrite oppr_eq0 !mulf_neq0 ?invr_eq0 ?pnatr_eq0.
have [ker Eke] : exists ker, compute_kernel 1 2 cd MRect None = Ok ker.
  rewrite /compute_kernel /= /kernel_first_kind_rect /kernel_first_kind_rect_buf /=.
  by rewrite /finv uB /=; eexists.
exists (GfpeResult c cd ker.1 ker.2); last first.
  apply/eqP => /= c0; have [_ -> _ /(congr1 (fun A : 'M_(_, _) => A 0 0))] := (mean_force_ok _ _ _).1 Emf.
  rewrite c0 mulmx0 !mxE !big_cons !big_nil /= /s_obs /= !mxE !big_ord_recl !big_ord0 !mxE /=.
  rewrite !(mulr0, mul0r, subr0, subrr, addr0, add0r, mulr1, mul1r) => /eqP.
  by rewrite eq_sym mulrN oppr_eq0 mulf_eq0 invr_eq0 pnatr_eq0 oner_eq0.
by rewrite Emf; cbv beta iota delta [bind fst]; rewrite Ec Eke.
Qed.
End Run.
