(** * Noise decomposition; witnesses for the estimator findings. *)
From mathcomp Require Import all_ssreflect all_algebra.
From mathcomp Require Import zify.
From Verif Require Import Base Tactics FKernel Model Estimator EstimatorSpec Quadrature FKernelSpec MemorySpec Mx11.
From Verif Require Import FKernelProofs MemoryProofs VolterraMain VolterraWitness EstimatorProofs EstimatorProofs2.
Set Implicit Arguments.
Unset Strict Implicit.
Unset Printing Implicit Defensive.
Import Order.TTheory GRing.Theory Num.Theory.
Local Open Scope ring_scope.

Section Noise.
Variables (R : realFieldType) (dx o : nat) (m : model_fns R dx o) (d : nat).
Local Notation smp := (sample R dx o).
Variable proj : smp -> 'rV[R]_d.
Implicit Types (xva : seq smp) (K : seq 'M[R]_(d, o)) (c : 'M[R]_(mf m, o)).

Definition window xva (start : nat) (stop : option nat) : seq smp :=
  drop start (if stop is Some e then take e xva else xva).

Lemma memory_for_start mt dt K (E : seq 'rV[R]_d) memo :
  (0 < size K)%N -> (0 < size E)%N -> memory_for mt dt K E = Ok memo ->
  size memo = size E /\ memo`_0 = 0.
Proof.
move=> sK sE.
have rect : memory_rect dt K E = Ok memo -> size memo = size E /\ memo`_0 = 0.
  by have [m' -> [sz h0 _]] := memory_rectE dt sK sE => -[<-].
have trapz : memory_trapz dt K E = Ok memo -> size memo = size E /\ memo`_0 = 0.
  by have [m' -> [sz h0 _]] := memory_trapz_main dt sK sE => -[<-].
by case: mt => [[]|] //=.
Qed.

Lemma noise_split c kern mt tr xva tk start stop out :
  compute_noise (m := m) proj (Some c) (Some kern) mt tr xva tk start stop = Ok out ->
  let w := window xva start stop in
  [/\ size (n_noise out) = size w, size (n_memory out) = size w & size (n_force out) = size w] ->
  forall i, (i < size w)%N ->
    (n_obs out)`_i = (n_noise out)`_i + const_mx (n_force out)`_i + (n_memory out)`_i.
Proof.
rewrite /compute_noise => E; unbind E s0 E0; rewrite -/(window xva start stop) in E.
set w := window xva start stop in E *; unbind E t1 E1; unbind E t2 E2; unbind E memo Em.
move: E => [<-] /= [_ sm sf] i li.
rewrite (nth_map (0, (0, 0))) ?size_zip ?size_map ?sm ?minnn //.
rewrite !nth_zip ?size_map ?size_zip ?size_map ?sm ?minnn //=.
by abel.
Qed.

Lemma noise_force_entry c kern mt tr xva tk start stop out :
  compute_noise (m := m) proj (Some c) (Some kern) mt tr xva tk start stop = Ok out ->
  n_force out = [seq \sum_(l < o) (Ef m s *m c) 0 l | s <- window xva start stop].
Proof.
rewrite /compute_noise => E; unbind E s0 E0; rewrite -/(window xva start stop) in E.
unbind E t1 E1; unbind E t2 E2; unbind E memo Em; move: E => [<-] /=.
by apply: eq_map => s; rewrite exchange_big /=; apply: eq_bigr => l _; rewrite mxE.
Qed.

(** What the caller gets, for a valid window, a non-empty kernel and a supported
    method. *)
Lemma noise_total c kern mt tr xva tk start stop :
  (1 < size (window xva start stop))%N -> (0 < size (take (odflt tr tk) kern))%N ->
  (match mt with None | Some MRect | Some MSecondRect | Some MTrapz | Some MSecondTrapz => true | _ => false end) ->
  exists2 out, compute_noise (m := m) proj (Some c) (Some kern) mt tr xva tk start stop = Ok out &
    let w := window xva start stop in
    [/\ [/\ size (n_noise out) = size w, size (n_memory out) = size w & size (n_force out) = size w],
        n_obs out = [seq s_obs s | s <- w], (n_memory out)`_0 = 0,
        n_force out = [seq \sum_(l < o) (Ef m s *m c) 0 l | s <- w]
      & forall i, (i < size w)%N ->
        (n_obs out)`_i = (n_noise out)`_i + const_mx (n_force out)`_i + (n_memory out)`_i].
Proof.
move=> sw sk ok.
have [out E] : exists out, compute_noise (m := m) proj (Some c) (Some kern) mt tr xva tk start stop = Ok out.
  rewrite /compute_noise; case: xva sw => [|s0 xs] sw.
    by move: sw; rewrite /window; case: stop.
  rewrite (rdE s0) //=; set w := (X in map _ X); have ew : w = window (s0 :: xs) start stop by [].
  rewrite (rdE 0) ?size_map ?ew //= (rdE 0) ?size_map ?ew ?(ltnW sw) //=.
  have sE : (0 < size [seq proj s | s <- w])%N by rewrite size_map ew; apply: ltnW.
  set E := map _ _ in sE *; set dt := _ - _.
  suff [r ->] : exists r, memory_for mt dt (take (odflt tr tk) kern) E = Ok r by eexists.
  have [r1 r1E _] := memory_rectE dt sk sE.
  have [r2 r2E _] := memory_trapz_main dt sk sE.
  by case: mt ok => [[]|] //= _; first [by exists r1 | by exists r2].
exists out => //; move=> w.
have hE : (0 < size [seq proj s | s <- w])%N by rewrite size_map; apply: ltnW.
have sizes : [/\ size (n_noise out) = size w, size (n_memory out) = size w & size (n_force out) = size w].
  move: (E); rewrite /compute_noise => E'; unbind E' s0 E0.
  rewrite -/(window xva start stop) -/w in E'; unbind E' t1 E1; unbind E' t2 E2; unbind E' memo Em.
  have [sm _] := memory_for_start sk hE Em.
  by move: E' => [<-] /=; rewrite !size_map !size_zip !size_map sm size_map !minnn.
split=> //.
- move: (E); rewrite /compute_noise => E'; unbind E' s0 E0.
  by unbind E' t1 E1; unbind E' t2 E2; unbind E' memo Em; move: E' => [<-].
- move: (E); rewrite /compute_noise => E'; unbind E' s0 E0.
  rewrite -/(window xva start stop) -/w in E'; unbind E' t1 E1; unbind E' t2 E2; unbind E' memo Em.
  have [_ h0] := memory_for_start sk hE Em.
  by move: E' => [<-].
- exact: noise_force_entry E.
- exact: noise_split E sizes.
Qed.

Lemma noise_midpoint c kern mt tr xva tk start stop :
  (1 < size (window xva start stop))%N ->
  (match mt with None | Some MRect | Some MSecondRect | Some MTrapz | Some MSecondTrapz => false | _ => true end) ->
  compute_noise (m := m) proj (Some c) (Some kern) mt tr xva tk start stop = Err ValueError.
Proof.
move=> sw ok; rewrite /compute_noise; case: xva sw => [|s0 xs] sw.
  by move: sw; rewrite /window; case: stop.
rewrite (rdE s0) //=; set w := (X in map _ X); have ew : w = window (s0 :: xs) start stop by [].
rewrite (rdE 0) ?size_map ?ew //= (rdE 0) ?size_map ?ew ?(ltnW sw) //=.
by case: mt ok => [[]|].
Qed.

End Noise.

(** For a one-component observable the subtracted force is the fitted one. *)
Lemma noise_one_component (R : realFieldType) dx (m : model_fns R dx 1) (c : 'M[R]_(mf m, 1)) (s : sample R dx 1) :
  const_mx (\sum_(l < 1) (Ef m s *m c) 0 l) = Ef m s *m c.
Proof. by apply/matrixP => i j; rewrite mxE big_ord1 !ord1. Qed.

(** ** Witnesses *)
Local Notation ratF := [realFieldType of rat].

(** C11: correlations whose raw kernel (0, 1, 0, 0) is changed by the smoothing. *)
Definition chk_B : seq 'M[rat]_1 := [:: c1 1; c1 0; c1 0; c1 0].
Definition chk_D : seq 'M[rat]_1 := [:: c1 0; c1 (-1); c1 0; c1 0].
Definition chk_c : corrs_data ratF 1 1 := Corrs chk_B chk_D [:: c1 0; c1 0; c1 0; c1 0] None.
Definition chk_raw : seq 'M[rat]_1 := [:: c1 0; c1 1; c1 0; c1 0].

Lemma chk_raw_ok : kernel_first_kind_trapz 2%:R (c1 0) chk_B chk_D = Ok chk_raw.
Proof.
apply/trapz_main; split; split=> //; first by rewrite unit11 /= !mx11.
by lags; move=> _; apply: mx11_eq; rules; num.
Qed.

Lemma chk_kernel_ok : exists times,
  compute_kernel 2%:R 4 chk_c MTrapz (Some (c1 0)) = Ok (times, c1 0 :: smooth chk_raw).
Proof. by eexists; rewrite /compute_kernel /= chk_raw_ok /=. Qed.

Lemma check_inversion_refuted :
  exists (dt : rat) (c : corrs_data ratF 1 1) (k0 : option 'M[rat]_1) times ker r n,
    [/\ compute_kernel dt 4 c MTrapz k0 = Ok (times, ker),
        check_volterra_inversion dt c ker = Ok r, (0 < n < size ker)%N & r`_n <> 0].
Proof.
have [times E] := chk_kernel_ok.
have [||r Er [_ H]] := @check_inversionE _ _ _ 2%:R chk_c (c1 0 :: smooth chk_raw); [by []|by []|].
exists 2%:R, chk_c, (Some (c1 0)), times, (c1 0 :: smooth chk_raw), r, 1%N; split; [exact: E|exact: Er|by []|].
rewrite (H 1%N isT) => /matrixP /(_ 0 0); rewrite /trapz_rule !mxE summxE big_ord1 !mxE !big_ord1 !mxE.
by move/eqP; vm_compute.
Qed.

Section Witnesses.
Variable R : realFieldType.

(** C28: the second trajectory starts at the last time of the first. *)
Definition at_t (t : R) : sample R 1 1 := (t, 0, 0, 0, 0).
Definition late_trajs : seq (seq (sample R 1 1)) :=
  [:: [:: at_t 0; at_t 1; at_t 2%:R]; [:: at_t 2%:R]].

Lemma trunc_ind_refuted :
  exists (trunc : R) (trajs : seq (seq (sample R 1 1))) N t,
    [/\ forall u, List.In u trajs -> sorted (fun a b => (s_t a < s_t b)%R) u,
        compute_trunc_ind trunc trajs = Ok N, List.In t trajs & (size t < N)%N].
Proof.
have l01 : 0 < 1 :> R := ltr01.
have l12 : 1 < 2%:R :> R by rewrite ltr1n.
exists 3%:R, late_trajs, 3%N, [:: at_t 2%:R]; split; last by [].
- by move=> u [<-|[<-|[]]] //=; rewrite /s_t /= l01 l12.
- rewrite /compute_trunc_ind /= /s_t /= minxx ltr_nat /=.
  by rewrite ler0n ler1n lexx.
- by right; left.
Qed.

(** C15: identity basis in dimension two, force equal to the position. *)
Definition lin2 : basis_fns R 2 :=
  {| nbasis := 2; nderiv := 2; const_removed := false; bval := id;
     bderiv := fun=> 1%:M; bhess := fun _ _ => 0 |}.
Definition noise_traj : seq (sample R 2 2) :=
  [:: (0, const_mx 1, 0, 0, 0); (1, const_mx 1, 0, 0, 0)].

Lemma noise_refuted :
  exists (dx o : nat) (m : model_fns R dx o) c kern mt xva out f i,
    [/\ compute_noise (m := m) (Ek m) (Some c) (Some kern) mt (size kern) xva None 0 None = Ok out,
        force_eval (m := m) (Some c) xva = Ok f, (i < size xva)%N
      & (n_obs out)`_i <> (n_noise out)`_i + f`_i + (n_memory out)`_i].
Proof.
pose m := Pos_gle 2 lin2.
have [|||out E [_ _ _ Hf H]] := @noise_total _ _ _ m _ (Ek m) 1%:M [:: 0] None 1 noise_traj None 0 None; try by [].
exists 2%N, 2%N, m, 1%:M, [:: 0], None, noise_traj, out, [seq Ef m s *m 1%:M | s <- noise_traj], 0%N.
split; [exact: E|by []|by []|].
rewrite (H 0%N isT) => /addIr /addrI /matrixP /(_ 0 0).
rewrite Hf /= mulmx1 !mxE big_ord_recl big_ord1 !mxE => /eqP.
by rewrite -subr_eq0 addrK oner_eq0.
Qed.

End Witnesses.

(** ** Pooled averages depend only on the multiset of samples *)
Section PoolInvariance.
Variables (R : realFieldType) (dx o : nat).
Local Notation smp := (sample R dx o).
Implicit Types (trajs : seq (seq smp)).

Definition same_samples (xs ys : seq smp) :=
  perm_eq (xs : seq [eqType of R * 'rV[R]_dx * 'rV[R]_dx * 'rV[R]_dx * 'rV[R]_o]) ys.

Lemma mean_product_perm p q (e : smp -> 'rV[R]_p) (f : smp -> 'rV[R]_q) xs ys :
  same_samples xs ys -> mean_product e f xs = mean_product e f ys.
Proof.
move=> H; apply/matrixP => i j; rewrite !mxE (perm_size H); congr (_ * _).
exact: (@perm_big _ _ _ [eqType of R * 'rV[R]_dx * 'rV[R]_dx * 'rV[R]_dx * 'rV[R]_o]).
Qed.

Lemma sample_mean_perm (V : lmodType R) (f : smp -> V) xs ys :
  same_samples xs ys -> sample_mean f xs = sample_mean f ys.
Proof.
move=> H; rewrite /sample_mean (perm_size H); congr (_ *: _).
exact: (@perm_big _ _ _ [eqType of R * 'rV[R]_dx * 'rV[R]_dx * 'rV[R]_dx * 'rV[R]_o]).
Qed.

Lemma gram_perm p (e : smp -> 'rV[R]_p) trajs trajs' :
  all_nonempty trajs -> all_nonempty trajs' -> same_samples (flatten trajs) (flatten trajs') ->
  [/\ compute_gram e trajs = compute_gram e trajs',
      compute_basis_mean e trajs = compute_basis_mean e trajs',
      compute_effective_mass trajs = compute_effective_mass trajs'
    & forall m : model_fns R dx o, compute_mean_force m trajs = compute_mean_force m trajs'].
Proof.
move=> n1 n2 H; split.
- by rewrite /compute_gram !tdot_pooled // (mean_product_perm _ _ H).
- by rewrite !basis_mean_pooled // (sample_mean_perm _ H).
- by rewrite /compute_effective_mass !tdot_pooled // (mean_product_perm _ _ H).
- by move=> m; rewrite /compute_mean_force !tdot_pooled // !(mean_product_perm _ _ H).
Qed.

Lemma mean_force_lsq (m : model_fns R dx o) trajs c G :
  compute_mean_force m trajs = Ok (c, G) ->
  [/\ residual_orthogonal (Ef m) s_obs c (flatten trajs),
      forall c', sq_residual (Ef m) s_obs c (flatten trajs) <= sq_residual (Ef m) s_obs c' (flatten trajs)
    & forall c', sq_residual (Ef m) s_obs c' (flatten trajs) = sq_residual (Ef m) s_obs c (flatten trajs) -> c' = c].
Proof.
case/mean_force_ok=> ne EG uG Ec.
have s0 : (0 < size (flatten trajs))%N.
  case/all_nonemptyP: ne => n0 pos; case: trajs n0 pos {EG uG Ec} => [|t l] //= _ pos.
  by rewrite size_cat; have := pos t (or_introl erefl); lia.
rewrite EG in Ec uG.
have orth := (normal_orthogonal _ _ _ s0).1 Ec.
by split=> // c'; [apply: lsq_optimal | apply: lsq_unique].
Qed.

Lemma mean_force_recovers (m : model_fns R dx o) trajs c G c0 :
  compute_mean_force m trajs = Ok (c, G) ->
  (forall s, List.In s (flatten trajs) -> s_obs s = Ef m s *m c0) -> c = c0.
Proof.
move=> E H; have [_ opt uniq] := mean_force_lsq E; symmetry; apply: uniq.
have z : sq_residual (Ef m) s_obs c0 (flatten trajs) = 0.
  rewrite /sq_residual; elim: (flatten trajs) H => [|s xs IH] H; first by rewrite big_nil.
  rewrite big_cons IH ?addr0; last by move=> t tx; apply: H; right.
  apply: big1 => l _; rewrite (H s (or_introl erefl)) mxE subrr.
  by rewrite expr0n.
apply/eqP; rewrite eq_le opt andbT z.
by apply: sumr_ge0 => s _; apply: sumr_ge0 => l _; apply: sqr_ge0.
Qed.

Lemma mean_force_success (m : model_fns R dx o) trajs :
  (exists r, compute_mean_force m trajs = Ok r) <->
  (all_nonempty trajs /\ mean_product (Ef m) (Ef m) (flatten trajs) \in unitmx).
Proof.
split=> [[[c G]] /mean_force_ok[ne -> uG _]//|[ne uG]].
exists (invmx (mean_product (Ef m) (Ef m) (flatten trajs)) *m mean_product (Ef m) s_obs (flatten trajs),
   mean_product (Ef m) (Ef m) (flatten trajs)).
by apply/mean_force_ok; split=> //; rewrite mulKVmx.
Qed.

End PoolInvariance.

Lemma noise_one (R : realFieldType) dx (m : model_fns R dx 1) d
    (proj : sample R dx 1 -> 'rV[R]_d) (c : 'M[R]_(mf m, 1)) kern mt tr xva tk :
  (1 < size xva)%N -> (0 < size (take (odflt tr tk) kern))%N ->
  (match mt with None | Some MRect | Some MSecondRect | Some MTrapz | Some MSecondTrapz => true | _ => false end) ->
  exists out f,
    [/\ compute_noise (m := m) proj (Some c) (Some kern) mt tr xva tk 0 None = Ok out,
        force_eval (m := m) (Some c) xva = Ok f, (n_memory out)`_0 = 0
      & forall i, (i < size xva)%N ->
          (nth 0 [seq s_obs s | s <- xva] i) = (n_noise out)`_i + f`_i + (n_memory out)`_i].
Proof.
move=> sx sk ok; have ew : window xva 0 None = xva by rewrite /window drop0.
have [|||out E] := @noise_total _ _ _ m _ proj c kern mt tr xva tk 0 None; rewrite ?ew //.
case=> _ Hobs h0 Hf H; exists out, [seq Ef m s *m c | s <- xva]; split=> // i li.
rewrite -Hobs H // Hf; case: xva li {sx ew E Hobs Hf H} => [|s0 xs] // li.
by rewrite !(nth_map s0) // noise_one_component.
Qed.

(** Two trajectories of different lengths with an invertible Gram matrix. *)
Definition lin1 (R : realFieldType) : basis_fns R 1 :=
  {| nbasis := 1; nderiv := 1; const_removed := false; bval := id;
     bderiv := fun=> 1%:M; bhess := fun _ _ => 0 |}.
Definition two_trajs (R : realFieldType) : seq (seq (sample R 1 1)) :=
  [:: [:: (0, 1%:M, 0, 0, 1%:M); (1, 1%:M, 0, 0, 0)]; [:: (0, 0, 0, 0, 1%:M)]].

Lemma two_trajs_ok (R : realFieldType) :
  exists r, compute_mean_force (Pos_gle 1 (lin1 R)) (two_trajs R) = Ok r.
Proof.
apply/mean_force_success; split=> //.
rewrite unitmxE det_mx11 unitfE mxE mulf_eq0 negb_or invr_eq0 pnatr_eq0 /=.
by rewrite !big_cons big_nil /= !mxE /= !mul1r mul0r !addr0 -(natrD R 1 1) pnatr_eq0.
Qed.
