(** * Witnesses for the sequences of calls and for saving and loading. *)
From mathcomp Require Import all_ssreflect all_algebra.
From mathcomp Require Import complex zify.
From Verif Require Import Base Tactics FKernel Model Estimator EstimatorSpec Quadrature FKernelSpec CorrelationSpec CorrsLoop Workflow.
From Verif Require Import FKernelProofs FKernelProofs2 VolterraMain EstimatorProofs EstimatorProofs2 EstimatorProofs3 CorrsProofs CorrelationProofs WorkflowProofs.
Set Implicit Arguments.
Unset Strict Implicit.
Unset Printing Implicit Defensive.
Import Order.TTheory GRing.Theory Num.Theory.
Local Open Scope ring_scope.

Section MeanForce.
Variables (R : rcfType) (dx o : nat) (m : model_fns R dx o).

Lemma mean_force_call trajs (s : state m) c G : compute_mean_force m trajs = Ok (c, G) ->
  call_mean_force trajs s = (set_force (set_gram_force s (Some G)) (Some c), Ok tt).
Proof.
rewrite /compute_mean_force /call_mean_force.
case: (avg_loop (tdot (Ef m) (@s_obs _ _ _)) trajs) => [d|] //=.
case: (avg_loop (tdot (Ef m) (Ef m)) trajs) => [g|] //=.
by rewrite /finish; case: (solve_linear g d) => [c'|] //= [-> ->].
Qed.

End MeanForce.

Section Witness.
Variables (R : rcfType) (w : nat -> R[i]).
Hypothesis wP : forall k, (2 ^ k.+1)%N.-primitive_root (w (2 ^ k.+1)%N).

(** A particle seen at position 1 with velocity 2 and observable 1, three times. *)
Definition wp (t : R) : sample R 1 1 := (t, 1%:M, 2%:R%:M, 0, 1%:M).
Definition wtraj : seq (sample R 1 1) := [:: wp 0; wp 1; wp 2%:R].
Definition wm : model_fns R 1 1 := Pos_gle_overdamped 1 id (fun=> 1%:M) false.

Lemma const_corr p q (e : sample R 1 1 -> 'rV[R]_p) (f : sample R 1 1 -> 'rV[R]_q) a b n :
  (forall t, e (wp t) = a) -> (forall t, f (wp t) = b) -> (n < 3)%N ->
  pooled_corr e f [:: wtraj] n = a^T *m b.
Proof.
move=> He Hf n3; rewrite /pooled_corr big_seq1 /= mulfV ?pnatr_eq0 // scale1r.
apply/matrixP => i j; rewrite !mxE big_ord1 !mxE /corr_estimate.
have N0 : (3 - n)%:R != 0 :> R by rewrite pnatr_eq0; lia.
rewrite (eq_bigr (fun _ => a 0 i * b 0 j)); last first.
  move=> [t /= lt] _ /=; rewrite !He !Hf.
  have t3 : (t < 3)%N by clear -lt; lia.
  have tn3 : (t + n < 3)%N by clear -lt; lia.
  have N3 (x : R) u : (u < 3)%N -> [:: x; x; x]`_u = x by case: u => [|[|[|u]]].
  by rewrite !N3.
by rewrite sumr_const card_ord -(mulr_natl (a 0 i * b 0 j)) mulKf.
Qed.

Definition wcorrs (so : bool) (c : 'M[R]_1) : corrs_data R 1 1 :=
  corrs_of so 2 (fun=> 1%:M) (fun=> 1%:M - c) (fun=> 2%:R *: (1%:M - c)) (fun=> 2%:R%:M).

Lemma eq_mkseq_lt (T : Type) (f g : nat -> T) n : (forall i, (i < n)%N -> f i = g i) -> mkseq f n = mkseq g n.
Proof. by move=> H; apply/eq_in_map => i; rewrite mem_iota => /H. Qed.

Lemma wcorrs_ok rt so (c : 'M[R]_1) :
  compute_corrs (m := wm) w rt so 2 (Some c) [:: wtraj] = Ok (wcorrs so c).
Proof.
rewrite compute_corrs_ok //; last by move=> t [<-|[]].
have E t : Ek wm (wp t) = 1%:M by [].
have D t : dEk wm (wp t) = 2%:R%:M.
  by apply/matrixP => i j; rewrite !mxE big_ord1 !mxE !ord1 /= mul1r.
have O t : ortho (m := wm) c (wp t) = 1%:M - c by rewrite /ortho /= mul1mx.
rewrite /wcorrs /corrs_of; congr (Ok (Corrs _ _ _ _)).
- by apply: eq_mkseq_lt => n ln; rewrite (const_corr E E) ?trmx1 ?mulmx1 //; lia.
- by apply: eq_mkseq_lt => n ln; rewrite (const_corr E O) ?trmx1 ?mul1mx //; lia.
- apply: eq_mkseq_lt => n ln; rewrite (const_corr D O) ?tr_scalar_mx ?mul_scalar_mx //.
  by case: so ln; lia.
- by case: so => //; congr Some; apply: eq_mkseq_lt => n ln; rewrite (const_corr D E) ?tr_scalar_mx ?mulmx1 //; lia.
Qed.

Lemma wmean_force : exists G, compute_mean_force wm [:: wtraj] = Ok (1%:M, G).
Proof.
have [[c G] E] : exists r, compute_mean_force wm [:: wtraj] = Ok r.
  apply/mean_force_success; split=> //.
  rewrite unitmxE det_mx11 unitfE mxE mulf_eq0 negb_or invr_eq0 pnatr_eq0 /=.
  by rewrite !big_cons big_nil /= !mxE /= !mul1r addr0 -!(natrD R 1) pnatr_eq0.
exists G; rewrite E; congr (Ok (_, _)).
by apply: (mean_force_recovers E) => s /= [<-|[<-|[<-|[]]]]; rewrite /= mulmx1.
Qed.

Local Notation apply_call := (@apply_call R w 1 1 wm 1 2 [:: wtraj]).
Local Notation run_calls := (@run_calls R w 1 1 wm 1 2 [:: wtraj]).

Definition wK : seq 'M[R]_1 := [:: - 1%:M; 0].

Lemma wkernel : compute_kernel 1 2 (wcorrs true 0) MRect None = Ok ([:: 0; 1], wK).
Proof.
rewrite /compute_kernel /= (_ : kernel_first_kind_rect 1 _ _ = Ok wK) /=.
  by rewrite /mkseq /= mul0r mul1r.
apply/rect_main; split; split=> //=; first by rewrite scale1r unitmx1.
move=> [|[|i]] //= _; rewrite /rect_rule big_ord1 /= scale1r mul1mx subr0.
by [].
Qed.

Lemma OkK (A B : Type) (b : bool) e (x y : A) (z t : B) :
  (let! _ := guard b e in Ok (x, z)) = Ok (y, t) -> x = y /\ z = t.
Proof. by case: b => // -[-> ->]. Qed.

Lemma no_fresh_kernel so mt k0 : compute_kernel 1 2 (wcorrs so 1%:M) mt k0 <> Ok ([:: 0; 1], wK).
Proof.
rewrite /wcorrs subrr scaler0.
rewrite /compute_kernel /=; case: mt => /= H.
- unbind H tk Htk; unbind Htk ker Hk; move: Htk H => -[<-] /=; move=> H3; have [_ Ek] := OkK H3.
  have [_ [_ _ sol]] := (rect_main _ _ _ _).1 Hk.
  have := sol 1%N isT; rewrite /rect_rule big_ord1 /= Ek scale1r mul1mx oppr0 => /matrixP /(_ 0 0).
  by rewrite !mxE => /eqP; rewrite oppr_eq0 oner_eq0.
- unbind H tk Htk; unbind Htk ker Hk; move: Htk H => -[<-] /=; move=> H3; have [E1 _] := OkK H3.
  by move/(f_equal size): E1; rewrite size_mkseq.
- unbind H tk Htk; unbind Htk ker Hk; by [].
- unbind H k1 Hk1; unbind H tk Htk; unbind Htk ker Hk; move: Htk H => -[<-] /=; move=> H3; have [E1 _] := OkK H3.
  by move/(f_equal size): E1; rewrite size_mkseq.
- unbind H k1 Hk1; case: so {Hk1} H => //= H.
  unbind H tk Htk; unbind Htk ker Hk; move: Htk H => -[<-] /=; move=> H3; have [_ Ek] := OkK H3.
  have [_ [_ _ sol]] := (rect2_main _ _ _ _ _ _).1 Hk.
  have := sol 1%N isT; rewrite /rect_rule big_ord1 /= Ek scale1r mul1mx mulmxN mulmx1 addr0 => /matrixP /(_ 0 0).
  by rewrite !mxE => /esym/eqP; rewrite oppr_eq0 pnatr_eq0.
- unbind H k1 Hk1; case: so {Hk1} H => //= H.
  unbind H tk Htk; unbind Htk ker Hk; move: Htk H => -[<-] /=; move=> H3; have [_ Ek] := OkK H3.
  have [_ [_ _ sol]] := (trapz2_main _ _ _ _ _ _).1 Hk.
  have := sol 1%N isT; rewrite /trapz_rule big_ord1 /= Ek scale1r mul1mx mulmxN mulmx1 mulmx0 !addr0 => /matrixP /(_ 0 0).
  rewrite !mxE => /esym/eqP; rewrite mulf_eq0 oppr_eq0 pnatr_eq0 orbF invr_eq0 pnatr_eq0.
  by [].
- by [].
Qed.

Lemma corrs_step (s : state wm) rt so c : st_force s = Some c ->
  apply_call s (CallCorrs wm rt so) = (set_corrs s (Some (wcorrs so c)), Ok tt).
Proof. by move=> H; rewrite /Workflow.apply_call H wcorrs_ok. Qed.

Lemma kernel_step (s : state wm) : st_corrs s = Some (wcorrs true 0) ->
  apply_call s (CallKernel (m := wm) MRect None)
  = (set_kernel (set_method s (Some MRect)) (Some ([:: 0; 1], wK)), Ok tt).
Proof. by move=> H; rewrite /Workflow.apply_call /call_kernel H wkernel. Qed.

Lemma mean_step : exists G, forall s : state wm,
  apply_call s (CallMeanForce wm) = (set_force (set_gram_force s (Some G)) (Some 1%:M), Ok tt).
Proof.
have [G E] := wmean_force; exists G => s.
exact: mean_force_call.
Qed.

Lemma run_cons (s : state wm) c cs : run_calls s (c :: cs) = run_calls (apply_call s c).1 cs.
Proof. by []. Qed.

Lemma run_nil (s : state wm) : run_calls s [::] = s.
Proof. by []. Qed.

(** C27: a kernel computed for the zero force, then the mean force is computed. *)
Definition stale_calls : seq (call wm) :=
  [:: CallZeroForce wm; CallCorrs wm FftND true; CallKernel (m := wm) MRect None; CallMeanForce wm].

Local Notation zstate := (set_force (init wm) (Some 0)).
Local Notation cstate := (set_corrs zstate (Some (wcorrs true 0))).
Local Notation kstate := (set_kernel (set_method cstate (Some MRect)) (Some ([:: 0; 1], wK))).

Lemma stale_run :
  [/\ apply_call (init wm) (CallZeroForce wm) = (zstate, Ok tt),
      apply_call zstate (CallCorrs wm FftND true) = (cstate, Ok tt)
    & apply_call cstate (CallKernel (m := wm) MRect None) = (kstate, Ok tt)].
Proof. by split; rewrite ?(corrs_step _ _ (c := 0)) ?kernel_step. Qed.

Lemma stale_state : exists G,
  run_calls (init wm) stale_calls
  = State (m := wm) (Some 1%:M) (Some G) None None (Some MRect) (Some ([:: 0; 1], wK)) (Some (wcorrs true 0)).
Proof.
have [G E] := mean_step; have [E1 E2 E3] := stale_run.
by exists G; rewrite /stale_calls run_cons E1 run_cons E2 run_cons E3 run_cons E.
Qed.

Lemma stale_kernel_refuted :
  exists cs : seq (call wm),
    (forall cs1 c cs2, cs = cs1 ++ c :: cs2 -> (apply_call (run_calls (init wm) cs1) c).2 = Ok tt)
    /\ ~ kernel_fresh w (m := wm) 1 2 [:: wtraj] (run_calls (init wm) cs).
Proof.
have [G E4] := mean_step; have [E1 E2 E3] := stale_run.
exists stale_calls; split.
  move=> [|c1 [|c2 [|c3 [|c4 [|c5 l]]]]] c cs2; rewrite /stale_calls ?cat_cons ?cat0s // => E; first [by case: E|move: E].
  - by case=> <- _.
  - by case=> <- <- _; rewrite run_cons E1 run_nil E2.
  - by case=> <- <- <- _; rewrite run_cons E1 run_cons E2 run_nil E3.
  - by case=> <- <- <- <- _; rewrite run_cons E1 run_cons E2 run_cons E3 run_nil E4.
have [G2 ->] := stale_state; move=> /(_ _ erefl) [rt [so [cd [mt [k0 [H1 H2]]]]]].
have [Ecd] : Ok (wcorrs so 1%:M) = Ok cd := etrans (esym (wcorrs_ok rt so 1%:M)) H1.
by apply: (@no_fresh_kernel so mt k0); rewrite Ecd.
Qed.

(** C26 *)
Lemma failing_call_refuted :
  exists (cs : seq (call wm)) c s' e xva out,
    let s := run_calls (init wm) cs in
    [/\ apply_call s c = (s', Err e), s' <> s,
        compute_noise (m := wm) (Ek wm) (st_force s) (omap snd (st_kernel s)) (st_method s) 2 xva None 0 None
          = Ok out
      & compute_noise (m := wm) (Ek wm) (st_force s') (omap snd (st_kernel s')) (st_method s') 2 xva None 0 None
          = Err ValueError].
Proof.
have [E1 E2 E3] := stale_run.
have [|||out No _] := @noise_total _ _ _ wm _ (Ek wm) 0 wK (Some MRect) 2 wtraj None 0 None; rewrite ?/window //.
exists [:: CallZeroForce wm; CallCorrs wm FftND true; CallKernel (m := wm) MRect None].
exists (CallKernel (m := wm) MOther None), (set_method kstate (Some MOther)), Documented, wtraj, out.
rewrite run_cons E1 run_cons E2 run_cons E3 run_nil; split.
- by [].
- by move=> H; have : Some MOther = Some MRect := f_equal (@st_method _ _ _ _) H.
- exact: No.
- exact: (@noise_midpoint _ _ _ wm _ (Ek wm) 0 wK (Some MOther) 2 wtraj None 0 None).
Qed.

(** C31 *)
Lemma wkernel_mid : compute_kernel 1 2 (wcorrs true 0) MMidpoint None = Ok ([:: 0], [:: - (2^-1)%:M]).
Proof.
rewrite /compute_kernel /= (_ : kernel_first_kind_midpoint 1 _ _ = Ok [:: - (2^-1)%:M]) /=.
  by rewrite /slice_back size_mkseq /mkseq /= mul0r.
apply/mid_main; split; split=> //=.
- by rewrite mulr1 unitmxE det_mx11 !mxE mulr1 unitfE pnatr_eq0.
- by move=> [|j] // _; case: j.
- move=> [|i] // _ /=; rewrite big_ord0 add0r mul1mx mulr1 scalerN scale_scalar_mx mulfV ?pnatr_eq0 //.
  by rewrite subr0.
Qed.

Lemma mid_step (s : state wm) : st_corrs s = Some (wcorrs true 0) ->
  apply_call s (CallKernel (m := wm) MMidpoint None)
  = (set_kernel (set_method s (Some MMidpoint)) (Some ([:: 0], [:: - (2^-1)%:M])), Ok tt).
Proof. by move=> H; rewrite /Workflow.apply_call /call_kernel H wkernel_mid. Qed.

Lemma save_load_noise_refuted :
  exists (cs : seq (call wm)) xva out, let s := run_calls (init wm) cs in
    [/\ forall cs1 c cs2, cs = cs1 ++ c :: cs2 -> (apply_call (run_calls (init wm) cs1) c).2 = Ok tt,
        compute_noise (m := wm) (Ek wm) (st_force s) (omap snd (st_kernel s)) (st_method s) 2 xva None 0 None
          = Err ValueError
      & let s := save_load s in
        compute_noise (m := wm) (Ek wm) (st_force s) (omap snd (st_kernel s)) (st_method s) 2 xva None 0 None
          = Ok out].
Proof.
have [E1 E2 _] := stale_run.
pose ms := set_kernel (set_method cstate (Some MMidpoint)) (Some ([:: 0], [:: - (2^-1)%:M])).
have E3 : apply_call cstate (CallKernel (m := wm) MMidpoint None) = (ms, Ok tt).
  exact: mid_step.
pose K := [:: - ((2^-1)%:M : 'M[R]_1)].
have [|||out No _] := @noise_total _ _ _ wm _ (Ek wm) 0 K None 2 wtraj None 0 None; rewrite ?/window //.
exists [:: CallZeroForce wm; CallCorrs wm FftND true; CallKernel (m := wm) MMidpoint None], wtraj, out.
rewrite run_cons E1 run_cons E2 run_cons E3 run_nil; split.
- move=> [|c1 [|c2 [|c3 [|c4 l]]]] c cs2; rewrite ?cat_cons ?cat0s // => E; first [by case: E|move: E].
  + by case=> <- _.
  + by case=> <- <- _; rewrite run_cons E1 run_nil E2.
  + by case=> <- <- <- _; rewrite run_cons E1 run_cons E2 run_nil E3.
- exact: (@noise_midpoint _ _ _ wm _ (Ek wm) 0 K (Some MMidpoint) 2 wtraj None 0 None).
- exact: No.
Qed.

Lemma wmass : compute_effective_mass [:: wtraj] = Ok (4%:R^-1)%:M.
Proof.
rewrite /compute_effective_mass /=.
set A := (X in finv X).
have -> : A = 4%:R%:M.
  rewrite /A !big_cons big_nil addr0 /= tr_scalar_mx mul_scalar_mx scale_scalar_mx -natrM.
  rewrite -!raddfD -!natrD scale_scalar_mx addn0 mulfV ?pnatr_eq0 // scale1r.
  by congr (_%:M); rewrite (natrM R 3 4) mulKf ?pnatr_eq0.
rewrite /finv invmx_scalar unitmxE det_mx11 mxE mulr1n unitfE pnatr_eq0.
by [].
Qed.

Lemma wpmf (q : R) : 0 < q ->
  let p := [:: 1^-1 *: (- (0 *m 1%:M) *m q%:M : 'rV[R]_1); 1^-1 *: (- (1%:M *m 1%:M) *m q%:M)] in
  (let! x := min_entries p in Ok [seq y - const_mx (true%:R * x) | y <- p]) = Ok [:: const_mx q; 0].
Proof.
move=> q0 p; have -> : p = [:: 0; const_mx (- q)].
  rewrite /p invr1 !scale1r mul0mx oppr0 mul0mx mulmx1 mulNmx mul1mx; congr [:: _; _].
  by apply/matrixP => i j; rewrite !mxE !ord1.
rewrite /min_entries /= enum_ordS (_ : enum 'I_0 = [::]) /=; last by apply: size0nil; rewrite size_enum_ord.
rewrite !mxE /= min_r ?oppr_le0 ?ltW // mul1r sub0r; congr (Ok [:: _; _]).
  by apply/matrixP => i j; rewrite !mxE opprK.
by apply/matrixP => i j; rewrite !mxE subrr.
Qed.

Lemma save_load_pmf_refuted :
  exists (cs : seq (call wm)) E kT v v', let s := run_calls (init wm) cs in
    [/\ forall cs1 c cs2, cs = cs1 ++ c :: cs2 -> (apply_call (run_calls (init wm) cs1) c).2 = Ok tt,
        pmf_eval s E kT true = Ok v, pmf_eval (save_load s) E kT true = Ok v' & v <> v'].
Proof.
have [G E1] := mean_step.
have E2 : forall s : state wm, apply_call s (CallMass wm) = (set_mass s (Some (4%:R^-1)%:M), Ok tt).
  by move=> s; rewrite /Workflow.apply_call wmass.
exists [:: CallMeanForce wm; CallMass wm], [:: 0; 1%:M], 1.
rewrite run_cons E1 run_cons E2 run_nil /pmf_eval /=.
exists [:: const_mx 4%:R^-1; 0], [:: const_mx 1; 0]; split.
- move=> [|c1 [|c2 [|c3 l]]] c cs2; rewrite ?cat_cons ?cat0s // => E; first [by case: E|move: E].
  + by case=> <- _; rewrite run_nil E1.
  + by case=> <- <- _; rewrite run_cons E1 run_nil E2.
- by apply: wpmf; rewrite invr_gt0 ltr0n.
- by apply: wpmf; rewrite ltr01.
- move=> H; have /matrixP /(_ 0 0) := f_equal (fun l => head 0 l) H; rewrite !mxE => /eqP.
  by rewrite invr_eq1 (eqr_nat R 4 1).
Qed.

End Witness.

Section SaveLoad.
Variables (R : rcfType) (dx o : nat) (m : model_fns R dx o).
Implicit Types s : state m.

Lemma save_load_same s :
  [/\ forall xs, force_eval (m := m) (st_force (save_load s)) xs = force_eval (m := m) (st_force s) xs,
      st_kernel (save_load s) = st_kernel s,
      st_force (save_load s) = st_force s /\ st_gram_force (save_load s) = st_gram_force s
    & match st_method s with None | Some MRect | Some MSecondRect => True | _ => False end ->
      forall tr xva tk start stop,
        compute_noise (m := m) (Ek m) (st_force (save_load s)) (omap snd (st_kernel (save_load s)))
          (st_method (save_load s)) tr xva tk start stop
        = compute_noise (m := m) (Ek m) (st_force s) (omap snd (st_kernel s)) (st_method s) tr xva tk start stop].
Proof.
split=> // ok tr xva tk start stop; rewrite /compute_noise /=.
by case: (st_method s) ok => [[]|].
Qed.

End SaveLoad.

Lemma save_load_pmf (R : rcfType) dx (m : model_fns R dx dx) (s : state m) :
  st_mass s = None -> forall E kT z, pmf_eval (save_load s) E kT z = pmf_eval s E kT z.
Proof. by move=> H E kT z; rewrite /pmf_eval H. Qed.
