(** * The estimator with range projection: proofs. *)
From mathcomp Require Import all_ssreflect all_algebra.
From mathcomp Require Import complex zify.
From Verif Require Import Base Tactics FKernel Model Estimator EstimatorSpec Quadrature FKernelSpec CorrelationSpec CorrsLoop RangeProj RangeProjProofs Projected.
From Verif Require Import VolterraMain EstimatorProofs EstimatorProofs2 EstimatorProofs3 CorrsProofs CorrelationProofs.
Set Implicit Arguments.
Unset Strict Implicit.
Unset Printing Implicit Defensive.
Import Order.TTheory GRing.Theory Num.Theory.
Local Open Scope ring_scope.

(** ** Projecting the basis amounts to lifting the kernel *)
Section Lift.
Variables (R : realFieldType) (d r o : nat) (P : 'M[R]_(r, d)).
Implicit Types (K : seq 'M[R]_(r, o)) (E : seq 'rV[R]_d).

Lemma rd_map S T (f : S -> T) l i : rd (map f l) i = (let! x := rd l i in Ok (f x)).
Proof. by rewrite /rd; elim: l i => [|x l IH] [|i] //=; apply: IH. Qed.

Lemma for_ext S lo hi (f g : nat -> S -> res S) x : (forall i y, f i y = g i y) -> for_ lo hi f x = for_ lo hi g x.
Proof. by move=> H; rewrite /for_; elim: (iota _ _) x => [|i l IH] x //=; rewrite H; case: (g i x) => /=. Qed.

Lemma bind_ext S T (a b : res S) (f g : S -> res T) : a = b -> (forall x, f x = g x) -> bind a f = bind b g.
Proof. by move=> -> H; case: b => [x|e] //=. Qed.

Definition lift K := [seq P^T *m A | A <- K].

Lemma lift_rect dt K E : memory_rect dt K [seq e *m P^T | e <- E] = memory_rect dt (lift K) E.
Proof.
rewrite /memory_rect !size_map; apply: for_ext => i y; apply: for_ext => j {}y.
case: (rd y i) => [a|] //=; rewrite !rd_map; case: (rd E _) => [e|] //=.
by case: (rd K j) => [b|] //=; rewrite mulmxA.
Qed.

Lemma lift_trapz dt K E : memory_trapz dt K [seq e *m P^T | e <- E] = memory_trapz dt (lift K) E.
Proof.
rewrite /memory_trapz !size_map; case: (wr _ _ _) => [m0|] //=; apply: for_ext => i y.
rewrite !rd_map; case: (rd E i) => [e|] //=; case: (rd K 0) => [k0|] //=; rewrite mulmxA.
case: (wr _ _ _) => [y1|] //=.
apply: bind_ext => [|z].
  apply: for_ext => j z; case: (rd z i) => [a|] //=; rewrite !rd_map; case: (rd E _) => [e1|] //=.
  by case: (rd K j) => [b|] //=; rewrite mulmxA.
case: (rd z i) => [a|] //=; case: (rd E _) => [e1|] //=.
by case: (rd K _) => [b|] //=; rewrite mulmxA.
Qed.

Lemma lift_memory mt dt K E : memory_for mt dt K [seq e *m P^T | e <- E] = memory_for mt dt (lift K) E.
Proof. by case: mt => [[]|] //=; rewrite ?lift_rect ?lift_trapz. Qed.

Lemma lift_noise dx (m : model_fns R dx o) (e : sample R dx o -> 'rV[R]_d) f K mt tr xva tk start stop :
  compute_noise (m := m) (fun x => e x *m P^T) f (Some K) mt tr xva tk start stop
  = compute_noise (m := m) e f (Some (lift K)) mt tr xva tk start stop.
Proof.
rewrite /compute_noise; case: f => [f|] //; case: (rd xva 0) => [s0|] //=; case: (rd _ 1) => [t1|] //=.
case: (rd _ 0) => [t0|] //=; rewrite -map_take -/(lift _) -lift_memory -map_comp.
by [].
Qed.

End Lift.

Section Calls.
Variables (R : rcfType) (w : nat -> R[i]) (dx o : nat) (m : model_fns R dx o).
Local Notation smp := (sample R dx o).
Variables (dt eps : R) (trunc_ind : nat) (trajs : seq (seq smp)).
Local Notation papply := (@papply R w dx o m dt eps trunc_ind trajs).
Local Notation prun := (@prun R w dx o m dt eps trunc_ind trajs).
Implicit Types (s : pstate m) (c : pcall m) (cs : seq (pcall m)).

(** Calls that change neither the force nor the correlations. *)
Definition quiet c := match c with PMeanForce | PZeroForce | PCorrs _ _ _ _ _ => false | _ => true end.

Lemma at_width_same r (k : seq 'M[R]_(r, o)) : at_width r k = Some k.
Proof. by rewrite /at_width; case: eqP => // e; rewrite (eq_axiomK e). Qed.

Lemma at_width_other r q (k : seq 'M[R]_(r, o)) : r != q -> at_width q k = None.
Proof. by rewrite /at_width; case: eqP. Qed.

Lemma p_kernelE s mt r (c : corrs_data R r o) : ps_corrs s = Some (existT _ r c) ->
  p_kernel dt trunc_ind s mt = if trunc_ind == 0%N then (s, Err OutOfBounds) else
    match compute_kernel dt trunc_ind c mt None with
    | Ok k => (put_kernel (put_method s (Some mt)) (Some (existT _ r k)), Ok tt)
    | Err e => (put_method s (Some mt), Err e)
    end.
Proof. by rewrite /p_kernel => ->; case: trunc_ind. Qed.

Lemma quiet_frame s c : quiet c ->
  [/\ ps_force (papply s c).1 = ps_force s, ps_proj (papply s c).1 = ps_proj s
    & ps_corrs (papply s c).1 = ps_corrs s].
Proof.
case: c => [|||rt so tol U sv|mt|xva tk st sp] //= _.
  by rewrite /p_gram_kernel; case: (compute_gram_kernel _ _).
rewrite /p_kernel; case C: (ps_corrs s) => [[r c]|] //=; case: trunc_ind => [|n] //=.
by case: (compute_kernel _ _ _ _ _) => [k|e] /=; rewrite ?C.
Qed.

(** The kernel is that of the projected correlations. *)
Definition has_kernel (cd : corrs_data R (mk m) o) (p : projection R (mk m)) s :=
  exists k mt, compute_kernel dt trunc_ind (project_corrs (p_mat p) cd) mt None = Ok k
    /\ ps_kernel s = Some (existT _ (p_rank p) k).

Lemma kernel_step cd p s c : ps_corrs s = Some (existT _ (p_rank p) (project_corrs (p_mat p) cd)) ->
  quiet c -> has_kernel cd p s -> has_kernel cd p (papply s c).1.
Proof.
move=> C q [k [mt [Ek EK]]]; case: c q => [|||rt so tol U sv|mt'|xva tk st sp] //= _; last by exists k, mt.
  by rewrite /p_gram_kernel; case: (compute_gram_kernel _ _) => [g|e] /=; exists k, mt.
rewrite (p_kernelE _ C); case: eqP => _ /=; first by exists k, mt.
case E: (compute_kernel _ _ _ _ _) => [k'|e] /=; last by exists k, mt.
by exists k', mt'.
Qed.

Lemma kernel_made cd p s mt : ps_corrs s = Some (existT _ (p_rank p) (project_corrs (p_mat p) cd)) ->
  (papply s (PKernel m mt)).2 = Ok tt -> has_kernel cd p (papply s (PKernel m mt)).1.
Proof.
move=> C /=; rewrite (p_kernelE _ C); case: eqP => _ //=.
by case E: (compute_kernel _ _ _ _ _) => [k'|e] //= _; exists k', mt.
Qed.

Lemma quiet_run s cs : all quiet cs ->
  [/\ ps_force (prun s cs) = ps_force s, ps_proj (prun s cs) = ps_proj s & ps_corrs (prun s cs) = ps_corrs s].
Proof.
elim: cs s => [|c cs IH] s //= /andP[q /IH H]; rewrite /prun /=.
have [f p r] := quiet_frame s q; have [-> -> ->] := H (papply s c).1.
by [].
Qed.

Lemma kernel_run cd p s cs : ps_corrs s = Some (existT _ (p_rank p) (project_corrs (p_mat p) cd)) ->
  all quiet cs -> has_kernel cd p s -> has_kernel cd p (prun s cs).
Proof.
elim: cs s => [|c cs IH] s //= C /andP[q qs] K; rewrite /prun /=; apply: IH => //.
  by have [_ _ ->] := quiet_frame s q.
exact: kernel_step.
Qed.

Lemma noise_projected s p k : ps_proj s = Some p -> ps_kernel s = Some (existT _ (p_rank p) k) ->
  forall xva tk start stop, p_noise trunc_ind s xva tk start stop
    = compute_noise (m := m) (fun x => Ek m x *m (p_mat p)^T) (ps_force s) (Some k.2) (ps_method s) trunc_ind xva tk start stop.
Proof.
move=> P K xva tk start stop; rewrite /p_noise P K at_width_same /compute_noise.
case: (ps_force s) => [f|] //=; case: (rd xva 0) => [s0|] //=.
set win := drop _ _; rewrite (_ : rd [seq s_t x1 - s_t s0 | x1 <- win] 1 = (let! x1 := rd win 1 in Ok (s_t x1 - s_t s0))).
  by case: (rd win 1).
by rewrite /rd; case: win => [|? [|]].
Qed.

Lemma projected_fresh (s0 : pstate m) rt so tol U sv cs1 mt cs2 :
  let s1 := (papply s0 (PCorrs rt so tol U sv)).1 in
  let s2 := prun s1 cs1 in
  let s3 := (papply s2 (PKernel m mt)).1 in
  let s := prun s3 cs2 in
  (papply s0 (PCorrs rt so tol U sv)).2 = Ok tt ->
  (papply s2 (PKernel m mt)).2 = Ok tt ->
  all quiet (cs1 ++ cs2) ->
  exists p cd k mt',
    [/\ set_range_projection dx (rank_tolerance tol eps sv) U sv = Ok p,
        ps_proj s = Some p,
        compute_corrs w rt so trunc_ind (ps_force s) trajs = Ok cd,
        compute_kernel dt trunc_ind (project_corrs (p_mat p) cd) mt' None = Ok k /\
        ps_kernel s = Some (existT _ (p_rank p) k)
      & forall xva tk start stop, p_noise trunc_ind s xva tk start stop
        = compute_noise (m := m) (Ek m) (ps_force s) (Some [seq (p_mat p)^T *m A | A <- k.2]) (ps_method s)
            trunc_ind xva tk start stop].
Proof.
move=> s1 s2 s3 s; rewrite all_cat => ok1 ok2 /andP[q1 q2].
have [p [cd [Ep Ecd P1 C1 F1]]] : exists p cd,
  [/\ set_range_projection dx (rank_tolerance tol eps sv) U sv = Ok p,
      compute_corrs w rt so trunc_ind (ps_force s0) trajs = Ok cd,
      ps_proj s1 = Some p, ps_corrs s1 = Some (existT _ (p_rank p) (project_corrs (p_mat p) cd))
    & ps_force s1 = ps_force s0].
  move: ok1; rewrite /s1 /= /p_corrs; case: (compute_corrs _ _ _ _ _ _) => [cd|] //=.
  case: (rd _ _) => [b0|] //=; case: (set_range_projection _ _ _ _) => [p|] //= _.
  by exists p, cd.
have [F2 P2 C2] := quiet_run s1 q1.
have [F3 P3 C3] : [/\ ps_force s3 = ps_force s2, ps_proj s3 = ps_proj s2 & ps_corrs s3 = ps_corrs s2] by exact: quiet_frame.
have [F4 P4 C4] := quiet_run s3 q2.
have Cs2 : ps_corrs s2 = Some (existT _ (p_rank p) (project_corrs (p_mat p) cd)) by rewrite /s2 C2.
have K3 := kernel_made Cs2 ok2.
have Cs3 : ps_corrs s3 = Some (existT _ (p_rank p) (project_corrs (p_mat p) cd)) by rewrite C3.
have [k [mt' [Ek EK]]] := kernel_run Cs3 q2 K3.
have Ps : ps_proj s = Some p by rewrite /s P4 P3 /s2 P2.
exists p, cd, k, mt'; split=> //; first by rewrite /s F4 F3 /s2 F2 F1.
by move=> xva tk start stop; rewrite (noise_projected Ps EK) lift_noise.
Qed.

(** The Gram matrix of the kernel basis. *)
Lemma gram_fails s : exists e, (papply s (PGramKernel m)).2 = Err e.
Proof. by rewrite /= /p_gram_kernel; case: (compute_gram_kernel _ _) => [g|e]; eexists. Qed.

Lemma gram_unprojected s g : compute_gram_kernel (Kb m) trajs = Ok g ->
  (papply s (PGramKernel m)).2 = Err AttributeError /\ ps_gram_kernel (papply s (PGramKernel m)).1 = Some g.
Proof. by rewrite /= /p_gram_kernel => ->. Qed.

Lemma corrs_call s rt so tol U sv cd p : compute_corrs w rt so trunc_ind (ps_force s) trajs = Ok cd ->
  (0 < size (bkbk cd))%N -> set_range_projection dx (rank_tolerance tol eps sv) U sv = Ok p ->
  papply s (PCorrs rt so tol U sv)
  = (put_corrs (put_proj s (Some p)) (Some (existT _ (p_rank p) (project_corrs (p_mat p) cd))), Ok tt).
Proof. by rewrite /= /p_corrs => ->; case: (bkbk cd) => //= b0 l _ ->. Qed.

Lemma corrs_call_fails s rt so tol U sv cd e : compute_corrs w rt so trunc_ind (ps_force s) trajs = Ok cd ->
  (0 < size (bkbk cd))%N -> set_range_projection dx (rank_tolerance tol eps sv) U sv = Err e ->
  papply s (PCorrs rt so tol U sv) = (put_corrs s (Some (existT _ (mk m) cd)), Err e).
Proof. by rewrite /= /p_corrs => ->; case: (bkbk cd) => //= b0 l _ ->. Qed.

Lemma kernel_call s mt r (cd : corrs_data R r o) k : ps_corrs s = Some (existT _ r cd) -> (0 < trunc_ind)%N ->
  compute_kernel dt trunc_ind cd mt None = Ok k ->
  papply s (PKernel m mt) = (put_kernel (put_method s (Some mt)) (Some (existT _ r k)), Ok tt).
Proof. by move=> C t0 E; rewrite /= (p_kernelE _ C) E gtn_eqF. Qed.

End Calls.

(** All calls succeed, and the decompositions given are those of the correlations. *)
Section Runs.
Variables (R : rcfType) (w : nat -> R[i]) (dx o : nat) (m : model_fns R dx o).
Variables (dt eps : R) (trunc_ind : nat) (trajs : seq (seq (sample R dx o))).

Definition honest (s : pstate m) (c : pcall m) : Prop :=
  if c is PCorrs rt so _ U sv then
    forall cd B0, compute_corrs w rt so trunc_ind (ps_force s) trajs = Ok cd -> rd (bkbk cd) 0 = Ok B0 ->
    eigh_spec B0 U sv
  else True.

Fixpoint succeeding (s : pstate m) (cs : seq (pcall m)) : Prop :=
  if cs is c :: cs' then
    [/\ honest s c, (papply w dt eps trunc_ind trajs s c).2 = Ok tt
      & succeeding (papply w dt eps trunc_ind trajs s c).1 cs']
  else True.
End Runs.

(** ** A basis of two functions whose gradients are 2(1-x) and x; a particle seen at 0,
    1 and 0. *)
Section Witness.
Variables (R : rcfType) (w : nat -> R[i]).
Hypothesis wP : forall k, (2 ^ k.+1)%N.-primitive_root (w (2 ^ k.+1)%N).

Definition two (a b : R) : 'rV[R]_2 := \row_i (if i == 0 then a else b).
Definition pbasis : basis_fns R 1 :=
  @Basis R 1 2 2 false (fun x => two (2%:R * x 0 0 - x 0 0 ^+ 2) (x 0 0 ^+ 2 / 2%:R))
    (fun x => \matrix_(i, j) two (2%:R * (1 - x 0 0)) (x 0 0) 0 i) (fun _ i => (two (- 2%:R) 1 0 i)%:M).
Definition pmod : model_fns R 1 1 := Pos_gle 1 pbasis.
Definition psmp (t x : R) : sample R 1 1 := (t, x%:M, 1%:M, 0, 1%:M).
Definition ptraj := [:: psmp 0 0; psmp 1 1; psmp 2%:R 0].
Definition psv : 'rV[R]_2 := two (8%:R / 3%:R) 3%:R^-1.

Lemma pEk t x : Ek pmod (psmp t x) = two (2%:R * (1 - x)) x.
Proof. by apply/rowP => i; rewrite !mxE big_ord1 !mxE /= mulr1; case: eqP. Qed.

Lemma mean_two (e : sample R 1 1 -> 'rV[R]_2) : (forall t x, e (psmp t x) = two (2%:R * (1 - x)) x) ->
  mean_product e e ptraj = diag_mx psv.
Proof.
move=> He; apply/matrixP => i j; rewrite [LHS]mxE /ptraj !big_cons big_nil !He addr0 !mxE subr0 subrr mulr1 mulr0.
case: i j => [[|[|//]] ?] [[|[|//]] ?] /=; rewrite ?mulr0 ?mul0r ?addr0 ?add0r ?mulr1 ?mulr1n ?mulr0 ?mulr0n //.
by rewrite -!natrM -natrD mulrC.
Qed.

(** The lag-one correlations exchange the two functions. *)
Lemma lag_two (e : sample R 1 1 -> 'rV[R]_2) : (forall t x, e (psmp t x) = two (2%:R * (1 - x)) x) ->
  pooled_corr e e [:: ptraj] 1 = \matrix_(i, j) (i != j)%:R.
Proof.
move=> He; rewrite /pooled_corr big_seq1 mulfV ?pnatr_eq0 // scale1r; apply/matrixP => i j; rewrite [LHS]mxE /corr_estimate.
rewrite !big_ord_recl big_ord0 /= !He !mxE subr0 subrr mulr1 mulr0 addr0.
case: i j => [[|[|//]] ?] [[|[|//]] ?] /=; rewrite ?mulr0 ?mul0r ?addr0 ?add0r ?mulr1 ?mulr1n ?mulr0 ?mulr0n //.
  by rewrite mulVf ?pnatr_eq0.
by rewrite mul1r mulVf ?pnatr_eq0.
Qed.

Lemma pcorrs rt so c : exists2 cd, compute_corrs (m := pmod) w rt so 2 (Some c) [:: ptraj] = Ok cd &
  exists D, bkbk cd = [:: diag_mx psv; \matrix_(i, j) (i != j)%:R] /\ bkdx cd = D /\ size D = 2%N.
Proof.
eexists; first by apply: compute_corrs_ok => // t [<-|[]].
eexists; split; last by split; [reflexivity | rewrite size_mkseq].
by rewrite /= /mkseq /= pooled_corr0 ?(lag_two pEk) ?(mean_two pEk) // => t [<-|[]].
Qed.
Lemma psv_spec : eigh_spec (diag_mx psv) 1%:M psv.
Proof.
split; first by rewrite trmx1 mul1mx.
  exists psv; first by rewrite trmx1 mul1mx mulmx1.
  by move=> i; rewrite mxE ger0_norm //; case: eqP => _; rewrite ?divr_ge0 ?invr_ge0 ?ler0n.
move=> i j; rewrite !mxE; case: i j => [[|[|//]] ?] [[|[|//]] ?] //= _.
by rewrite -[X in X <= _]mul1r ler_pmul2r ?invr_gt0 ?ltr0n // ler1n.
Qed.

Lemma psv_rank0 : set_range_projection 1 (rank_tolerance (Some 0) 0 psv) 1%:M psv = Ok (Proj 1%:M).
Proof.
rewrite /set_range_projection /count_rank /= !enum_ordS /= (_ : enum 'I_0 = [::]) /=; last first.
  by apply/eqP; rewrite -size_eq0 size_enum_ord.
by rewrite !mxE /= divr_gt0 ?invr_gt0 ?ltr0n.
Qed.

Lemma psv_rank1 : exists2 p, set_range_projection 1 (rank_tolerance (Some 1) 0 psv) 1%:M psv = Ok p & p_rank p = 1%N.
Proof.
rewrite /set_range_projection /count_rank /= !enum_ordS /= (_ : enum 'I_0 = [::]) /=; last first.
  by apply/eqP; rewrite -size_eq0 size_enum_ord.
rewrite !mxE /= ltr_pdivl_mulr ?ltr0n // mul1r ltr_nat /= invf_gt1 ?ltr0n //.
rewrite (_ : (3%:R < 1 :> R) = false) ?(ltr_nat _ 3 1) //=.
by eexists; first reflexivity.
Qed.

Lemma exchange_unit : (\matrix_(i, j) (i != j)%:R : 'M[R]_2) \in unitmx.
Proof.
suff /mulmx1_unit [] // : (\matrix_(i, j) (i != j)%:R : 'M[R]_2) *m (\matrix_(i, j) (i != j)%:R) = 1%:M by [].
apply/matrixP => i j; rewrite !mxE !big_ord_recl big_ord0 !mxE.
by case: i j => [[|[|//]] ?] [[|[|//]] ?]; rewrite /= ?mulr0 ?mul0r ?mulr1 ?addr0 ?add0r.
Qed.

Lemma pkernel (cd : corrs_data R 2 1) : bkbk cd = [:: diag_mx psv; \matrix_(i, j) (i != j)%:R] ->
  size (bkdx cd) = 2%N ->
  exists2 k, compute_kernel 1 2 (project_corrs (1%:M : 'M[R]_2) cd) MRect None = Ok k & size k.2 = 2%N.
Proof.
move=> EB; case ED: (bkdx cd) => [|d0 [|d1 [|]]] // _; rewrite /compute_kernel /= EB ED /=.
rewrite /kernel_first_kind_rect /kernel_first_kind_rect_buf /= mul1mx trmx1 mulmx1 scale1r /finv exchange_unit /=.
by eexists.
Qed.

Definition pcalls rt so : seq (pcall pmod) :=
  [:: PZeroForce pmod; @PCorrs _ _ _ pmod rt so (Some 0) 1%:M psv; PKernel pmod MRect].
Definition pagain rt so : pcall pmod := @PCorrs _ _ _ pmod rt so (Some 1) 1%:M psv.
Local Notation app := (@papply R w 1 1 pmod 1 0 2 [:: ptraj]).
Local Notation pst rt so := (@prun R w 1 1 pmod 1 0 2 [:: ptraj] (pinit pmod) (pcalls rt so)).

Lemma width_witness rt so :
  [/\ succeeding w 1 0 2 [:: ptraj] (pinit pmod) (rcons (pcalls rt so) (pagain rt so)),
      exists n, p_noise 2 (pst rt so) ptraj None 0 None = Ok n
    & p_noise 2 (app (pst rt so) (pagain rt so)).1 ptraj None 0 None = Err ValueError].
Proof.
have [cd E [D [EB [ED sD]]]] := pcorrs rt so 0.
have sD' : size (bkdx cd) = 2%N by rewrite ED.
have [k EK sk] := pkernel EB sD'.
have [p Ep Er] := psv_rank1.
set s1 := (app (pinit pmod) (PZeroForce pmod)).1.
have sB : (0 < size (bkbk cd))%N by rewrite EB.
have H1 s : ps_force s = Some 0 -> honest w 2 [:: ptraj] s (@PCorrs _ _ _ pmod rt so (Some 0) 1%:M psv) /\
  honest w 2 [:: ptraj] s (pagain rt so).
  by move=> F; split=> c B0; rewrite F E => -[<-]; rewrite EB => -[<-]; exact: psv_spec.
have C1 := @corrs_call R w 1 1 pmod 1 0 2 [:: ptraj] s1 rt so (Some 0) 1%:M psv cd _ E sB psv_rank0.
set s2 := (app s1 (@PCorrs _ _ _ pmod rt so (Some 0) 1%:M psv)).1.
have K2 : app s2 (PKernel pmod MRect) = (put_kernel (put_method s2 (Some MRect)) (Some (existT _ 2%N k)), Ok tt).
  by apply: kernel_call (EK) => //; rewrite /s2 C1.
set s3 := (app s2 (PKernel pmod MRect)).1.
have F3 : ps_force s3 = Some 0 by rewrite /s3 K2 /s2 C1.
have P3 : ps_proj s3 = Some (Proj (1%:M : 'M[R]_2)) by rewrite /s3 K2 /s2 C1.
have K3 : ps_kernel s3 = Some (existT _ 2%N k) by rewrite /s3 K2.
have M3 : ps_method s3 = Some MRect by rewrite /s3 K2.
have C4 : app s3 (pagain rt so) = (put_corrs (put_proj s3 (Some p)) (Some (existT _ (p_rank p) (project_corrs (p_mat p) cd))), Ok tt).
  by apply: corrs_call sB Ep; rewrite F3.
split.
- split=> //; split; [by apply: (H1 s1 _).1 | by rewrite -/s1 C1 |].
  split=> //; first by rewrite -/s1 -/s2 K2.
  by split; [apply: (H1 s3 F3).2 | rewrite -/s1 -/s2 -/s3 C4 |].
- rewrite -[pst _ _]/s3.
  rewrite (@noise_projected R 1 1 pmod 2 s3 (Proj (1%:M : 'M[R]_2)) k P3 K3) F3 M3.
  have [||//|n En _] := @noise_total R 1 1 pmod _ (fun x => Ek pmod x *m (p_mat (Proj (1%:M : 'M[R]_2)))^T) 0 k.2 (Some MRect) 2 ptraj None 0 None.
  + by [].
  + by case: (k.2) sk.
  by exists n.
rewrite -[pst _ _]/s3 /p_noise C4 /= F3 K3 /= at_width_other // Er.
by [].
Qed.

(** A basis of one function, a particle at rest seen three times; the singular value does not
    exceed the tolerance. *)
Definition obasis : basis_fns R 1 := @Basis R 1 1 1 false (fun x => x) (fun _ => 1%:M) (fun _ _ => 0).
Definition omod : model_fns R 1 1 := Pos_gle 1 obasis.
Definition otraj := [:: psmp 0 0; psmp 1 0; psmp 2%:R 0].

Lemma oEk t x : Ek omod (psmp t x) = 1%:M.
Proof. by apply/rowP => i; rewrite !mxE big_ord1 !mxE mulr1 (ord1 (i : 'I_1)). Qed.

Lemma mean_one (e : sample R 1 1 -> 'rV[R]_1) : (forall t x, e (psmp t x) = 1%:M) -> mean_product e e otraj = 1%:M.
Proof.
move=> He; apply/matrixP => i j; rewrite [LHS]mxE /otraj !big_cons big_nil !He addr0 !mxE !ord1 mulr1.
by rewrite -!natrD mulVf ?pnatr_eq0.
Qed.

Lemma lag_one (e : sample R 1 1 -> 'rV[R]_1) : (forall t x, e (psmp t x) = 1%:M) ->
  pooled_corr e e [:: otraj] 1 = 1%:M.
Proof.
move=> He; rewrite /pooled_corr big_seq1 mulfV ?pnatr_eq0 // scale1r; apply/matrixP => i j; rewrite [LHS]mxE /corr_estimate.
rewrite !big_ord_recl big_ord0 /= !He !mxE !ord1 mulr1 addr0.
by rewrite -!natrD mulVf ?pnatr_eq0.
Qed.

Lemma ocorrs rt so c : exists2 cd, compute_corrs (m := omod) w rt so 2 (Some c) [:: otraj] = Ok cd &
  bkbk cd = [:: 1%:M; 1%:M] /\ size (bkdx cd) = 2%N.
Proof.
eexists; first by apply: compute_corrs_ok => // t [<-|[]].
split; last by rewrite size_mkseq.
by rewrite /= /mkseq /= pooled_corr0 ?(lag_one oEk) ?(mean_one oEk) // => t [<-|[]].
Qed.

Lemma failing_witness rt so :
  let s := (papply w 1 0 2 [:: otraj] (pinit omod) (PZeroForce omod)).1 in
  let c := @PCorrs _ _ _ omod rt so (Some 1) 1%:M 1%:M in
  let s1 := (papply w 1 0 2 [:: otraj] s c).1 in
  let s2 := (papply w 1 0 2 [:: otraj] s1 (PKernel omod MRect)).1 in
  [/\ honest w 2 [:: otraj] s c, (papply w 1 0 2 [:: otraj] s c).2 = Err Documented,
      ps_corrs s = None /\ ps_corrs s1 <> None,
      (papply w 1 0 2 [:: otraj] s1 (PKernel omod MRect)).2 = Ok tt
    & p_noise 2 s2 otraj None 0 None = Err TypeError].
Proof.
move=> s c s1 s2.
have [cd E [EB sD]] := ocorrs rt so 0.
have sB : (0 < size (bkbk cd))%N by rewrite EB.
have Ep : set_range_projection 1 (rank_tolerance (Some 1) 0 1%:M) (1%:M : 'M[R]_1) 1%:M = Err Documented.
  rewrite /set_range_projection /count_rank /= !enum_ordS /= (_ : enum 'I_0 = [::]) /=; last first.
    by apply/eqP; rewrite -size_eq0 size_enum_ord.
  by rewrite !mxE /= ltxx.
have C1 : papply w 1 0 2 [:: otraj] s c = (put_corrs s (Some (existT _ (mk omod) cd)), Err Documented).
  exact: (@corrs_call_fails R w 1 1 omod 1 0 2 [:: otraj] s rt so (Some 1) 1%:M 1%:M cd _ E sB Ep).
have [k EK] : exists k, compute_kernel 1 2 cd MRect None = Ok k.
  case ED: (bkdx cd) sD => [|d0 [|d1 [|]]] // _; rewrite /compute_kernel /= EB ED /=.
  rewrite /kernel_first_kind_rect /kernel_first_kind_rect_buf /= scale1r /finv unitmx1 /=.
  by eexists.
have K2 : papply w 1 0 2 [:: otraj] s1 (PKernel omod MRect)
  = (put_kernel (put_method s1 (Some MRect)) (Some (existT _ (mk omod) k)), Ok tt).
  by apply: kernel_call (EK) => //; rewrite /s1 C1.
split.
- move=> cd' B0; rewrite [ps_force s]/= E => -[<-]; rewrite EB => -[<-].
  split; first by rewrite trmx1 mul1mx.
    exists 1%:M; first by rewrite trmx1 mul1mx mulmx1; apply/matrixP => i j; rewrite !mxE !ord1.
    by move=> i; rewrite mxE ger0_norm // ler0n.
  by move=> i j _; rewrite !ord1.
- by rewrite C1.
- by split=> //; rewrite /s1 C1.
- by rewrite K2.
by rewrite /p_noise /s2 K2 /s1 C1.
Qed.

End Witness.
