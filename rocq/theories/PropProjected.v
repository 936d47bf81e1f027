(** * C71: the estimator with projection on the range of the basis. *)
From mathcomp Require Import all_ssreflect all_algebra.
From mathcomp Require Import complex.
From Verif Require Import Base Model Estimator CorrsLoop RangeProj RangeProjProofs CorrelationProofs PropCorrelation Projected ProjectedProofs.
Set Implicit Arguments.
Unset Strict Implicit.
Unset Printing Implicit Defensive.
Import GRing.Theory Num.Theory.
Local Open Scope ring_scope.

(** After correlations and, later, a kernel, with only kernel, Gram and noise calls in
    between and afterwards (failing or not), the stored kernel is that of the correlations
    of the present force projected on the stored range, and the noise is the noise of the
    whole basis with the kernel lifted back by the transposed projection. *)
Theorem C71_fresh_partial (R : rcfType) (w : nat -> R[i]) (dx o : nat) (m : model_fns R dx o)
    (dt eps : R) (trunc_ind : nat) (trajs : seq (seq (sample R dx o)))
    (s0 : pstate m) rt so tol U sv cs1 mt cs2 :
  let s1 := (papply w dt eps trunc_ind trajs s0 (PCorrs rt so tol U sv)).1 in
  let s2 := prun w dt eps trunc_ind trajs s1 cs1 in
  let s := prun w dt eps trunc_ind trajs (papply w dt eps trunc_ind trajs s2 (PKernel m mt)).1 cs2 in
  (papply w dt eps trunc_ind trajs s0 (PCorrs rt so tol U sv)).2 = Ok tt ->
  (papply w dt eps trunc_ind trajs s2 (PKernel m mt)).2 = Ok tt ->
  all (@quiet R dx o m) (cs1 ++ cs2) ->
  exists p cd k mt',
    [/\ set_range_projection dx (rank_tolerance tol eps sv) U sv = Ok p,
        ps_proj s = Some p,
        compute_corrs w rt so trunc_ind (ps_force s) trajs = Ok cd,
        compute_kernel dt trunc_ind (project_corrs (p_mat p) cd) mt' None = Ok k /\
        ps_kernel s = Some (existT _ (p_rank p) k)
      & forall xva tk start stop, p_noise trunc_ind s xva tk start stop
        = compute_noise (m := m) (Ek m) (ps_force s) (Some [seq (p_mat p)^T *m A | A <- k.2]) (ps_method s)
            trunc_ind xva tk start stop].
Proof. exact: projected_fresh. Qed.
Print Assumptions C71_fresh_partial.

(** The Gram matrix of the kernel basis: the call never succeeds, and when the average
    exists it is left stored without the projection (finding F68). *)
Theorem C71_gram_refuted (R : rcfType) (w : nat -> R[i]) (dx o : nat) (m : model_fns R dx o)
    (dt eps : R) (trunc_ind : nat) (trajs : seq (seq (sample R dx o))) (s : pstate m) :
  (exists e, (papply w dt eps trunc_ind trajs s (PGramKernel m)).2 = Err e) /\
  forall g, compute_gram_kernel (Kb m) trajs = Ok g ->
    (papply w dt eps trunc_ind trajs s (PGramKernel m)).2 = Err AttributeError /\
    ps_gram_kernel (papply w dt eps trunc_ind trajs s (PGramKernel m)).1 = Some g.
Proof. by split; [exact: gram_fails | move=> g; exact: gram_unprojected]. Qed.
Print Assumptions C71_gram_refuted.

(** A sequence of calls all of which succeed, after which the noise can be computed; the
    correlations are then computed again with another tolerance, which succeeds too, and the
    noise cannot be computed any more (finding F69). *)
Theorem C71_width_refuted (R : rcfType) (w : nat -> R[i]) (rt : corr_routine) (so : bool) :
  fft_roots w ->
  exists (m : model_fns R 1 1) (trajs : seq (seq (sample R 1 1))) (xva : seq (sample R 1 1)) cs c,
    [/\ succeeding w 1 0 2 trajs (pinit m) (rcons cs c),
        exists n, p_noise 2 (prun w 1 0 2 trajs (pinit m) cs) xva None 0 None = Ok n
      & p_noise 2 (prun w 1 0 2 trajs (pinit m) (rcons cs c)) xva None 0 None = Err ValueError].
Proof.
move=> wP; exists (pmod R), [:: ptraj R], (ptraj R), (pcalls R rt so), (pagain R rt so).
by rewrite {2}/prun foldl_rcons; exact: width_witness.
Qed.
Print Assumptions C71_width_refuted.

(** A call for the correlations that raises the documented error leaves correlations behind
    that were not projected; a kernel is computed from them, and the noise then fails for
    want of a projection (finding F70). *)
Theorem C71_failing_refuted (R : rcfType) (w : nat -> R[i]) (rt : corr_routine) (so : bool) :
  fft_roots w ->
  exists (m : model_fns R 1 1) (trajs : seq (seq (sample R 1 1))) (xva : seq (sample R 1 1)) s c,
    let s1 := (papply w 1 0 2 trajs s c).1 in
    let s2 := (papply w 1 0 2 trajs s1 (PKernel m MRect)).1 in
    [/\ honest w 2 trajs s c, (papply w 1 0 2 trajs s c).2 = Err Documented,
        ps_corrs s = None /\ ps_corrs s1 <> None,
        (papply w 1 0 2 trajs s1 (PKernel m MRect)).2 = Ok tt
      & p_noise 2 s2 xva None 0 None = Err TypeError].
Proof.
move=> wP; exists (omod R), [:: otraj R], (otraj R).
by do 2 eexists; exact: (failing_witness wP rt so).
Qed.
Print Assumptions C71_failing_refuted.

(** A run as in [C71_fresh_partial]: both calls succeed on the two-function basis. *)
Example C71_example (R : rcfType) :
  succeeding (root_family R) 1 0 2 [:: ptraj R] (pinit (pmod R)) (pcalls R FftND true).
Proof.
have wP : fft_roots (root_family R) by move=> k; apply: root_familyP; rewrite expn_gt0.
by have [[? ? [? ? [? ? _]]] _ _] := width_witness wP FftND true.
Qed.
