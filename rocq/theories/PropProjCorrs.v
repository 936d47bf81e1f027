(** * C73: correlations with the noise over several trajectories. *)
From mathcomp Require Import all_ssreflect all_algebra.
From Verif Require Import Base Model Estimator EstimatorProofs3 Quadrature MemorySpec NoiseCorr ProjCorrs ProjCorrsProofs.
Set Implicit Arguments.
Unset Strict Implicit.
Unset Printing Implicit Defensive.
Import GRing.Theory Num.Theory.
Local Open Scope ring_scope.

(** The times of the kernel unchanged (all of them, all but the last for the trapezoidal
    methods), and at every lag the window averages of the trajectories, each weighted by the
    number of samples of its trajectory. *)
Theorem C73_weighted_partial (R : realFieldType) dx o (m : model_fns R dx o) d q (proj : sample R dx o -> 'rV[R]_d)
    (c : 'M[R]_(mf m, o)) times kern mt (l : left_op R dx o q) (h : seq (sample R dx o) -> R) trajs :
  usable mt -> (0 < size trajs)%N -> size times = size kern ->
  (forall t, List.In t trajs ->
     [/\ (1 < size t)%N, (size kern <= size t)%N, evenly_sampled (h t) t & size (left_values c t l) = size t]) ->
  exists C,
    [/\ compute_projected_corrs proj (Some c) (Some (times, kern)) mt l trajs = Ok (take (lags mt (size kern)) times, C),
        size C = lags mt (size kern)
      & forall n, (n < lags mt (size kern))%N ->
          C`_n = \sum_(t <- trajs) ((size t)%:R / (size (flatten trajs))%:R) *:
                   window_average (left_values c t l)
                     (noise_by mt (h t) (residual c t) kern [seq proj s | s <- t]) n].
Proof. exact: projected_weighted. Qed.
Print Assumptions C73_weighted_partial.

(** Trajectories of one length: the average over all windows of all trajectories. *)
Theorem C73_same_length_partial (R : realFieldType) dx o (m : model_fns R dx o) d q (proj : sample R dx o -> 'rV[R]_d)
    (c : 'M[R]_(mf m, o)) times kern mt (l : left_op R dx o q) (h : seq (sample R dx o) -> R) (N : nat) trajs :
  usable mt -> (0 < size trajs)%N -> size times = size kern -> (1 < N)%N -> (size kern <= N)%N ->
  (forall t, List.In t trajs -> [/\ size t = N, evenly_sampled (h t) t & size (left_values c t l) = size t]) ->
  exists C,
    [/\ compute_projected_corrs proj (Some c) (Some (times, kern)) mt l trajs = Ok (take (lags mt (size kern)) times, C),
        size C = lags mt (size kern)
      & forall n, (n < lags mt (size kern))%N ->
          C`_n = all_windows_average (fun t => left_values c t l)
                   (fun t => noise_by mt (h t) (residual c t) kern [seq proj s | s <- t]) trajs n].
Proof. exact: projected_same_length. Qed.
Print Assumptions C73_same_length_partial.

(** An array as [left_op] serves all trajectories: one trajectory of another length and the
    call fails. *)
Theorem C73_array_partial (R : realFieldType) dx o (m : model_fns R dx o) d q (proj : sample R dx o -> 'rV[R]_d)
    force kernel mt (a : seq 'rV[R]_q) trajs t :
  List.In t trajs -> size t <> size a ->
  exists e, compute_projected_corrs (m := m) proj force kernel mt (LArray dx o a) trajs = Err e.
Proof. exact: projected_array. Qed.
Print Assumptions C73_array_partial.

(** Constant observable [a] at unit steps. *)
Definition const_obs (R : realFieldType) (k : nat) (a : R) : seq (sample R 1 1) :=
  mkseq (fun i => (i%:R, 0, 0, 0, a%:M)) k.

Lemma const_obs_even (R : realFieldType) k a : evenly_sampled 1 (@const_obs R k a).
Proof.
move=> i; rewrite size_mkseq => ik; rewrite /const_obs /mkseq -map_comp.
rewrite !(nth_map 0%N) ?size_iota ?(ltnW ik) // !nth_iota ?(ltnW ik) //= /s_t /= !add0n.
by rewrite -addn1 natrD addrAC subrr add0r.
Qed.

Lemma const_obs_term (R : realFieldType) (m := Pos_gle 1 (lin1 R)) k a (s n : nat) : (s + n < k)%N ->
  ((residual (m := m) 0 (@const_obs R k a))`_s)^T
    *m noise_by (Some MRect) 1 (residual (m := m) 0 (const_obs k a)) [:: 0; 0] [seq Ek m s | s <- const_obs k a] s n
  = (a * a)%:M.
Proof.
move=> sk.
have rE j : (j < k)%N -> (residual (m := m) 0 (const_obs k a))`_j = a%:M.
  move=> jk; rewrite /residual /const_obs /mkseq -map_comp (nth_map 0%N) ?size_iota //=.
  by rewrite mulmx0 subr0.
rewrite rE ?(leq_ltn_trans (leq_addr n s)) // /noise_by /noise_rect rE // /rect_rule big1 ?scaler0 ?addr0.
  by rewrite tr_scalar_mx -scalar_mxM.
by move=> i _; rewrite /mem_integrand; case: (nat_of_ord i) => [|[|j]] /=; rewrite ?nth_nil ?mulmx0.
Qed.

Lemma const_obs_sum (R : realFieldType) (m := Pos_gle 1 (lin1 R)) k a (n : nat) :
  \sum_(s < size (@const_obs R k a) - n) ((residual (m := m) 0 (@const_obs R k a))`_s)^T
    *m noise_by (Some MRect) 1 (residual (m := m) 0 (const_obs k a)) [:: 0; 0] [seq Ek m s | s <- const_obs k a] s n
  = (k - n)%:R *: (a * a)%:M.
Proof.
rewrite size_mkseq (eq_bigr (fun=> (a * a)%:M)) ?sumr_const ?card_ord ?scaler_nat // => s _.
by apply: const_obs_term; have := ltn_ord s; rewrite ltn_subRL addnC.
Qed.

(** Trajectories of different lengths: not the average over all windows (finding F74). *)
Theorem C73_all_windows_refuted (R : realFieldType) :
  exists (m : model_fns R 1 1) (c : 'M[R]_(mf m, 1)) times kern trajs C n,
    [/\ size times = size kern,
        forall t, List.In t trajs -> [/\ (1 < size t)%N, (size kern <= size t)%N & evenly_sampled 1 t],
        compute_projected_corrs (Ek m) (Some c) (Some (times, kern)) (Some MRect) (LNone R 1 1) trajs = Ok (times, C),
        (n < size kern)%N
      & C`_n <> all_windows_average (fun t => residual c t)
                  (fun t => noise_by (Some MRect) 1 (residual c t) kern [seq Ek m s | s <- t]) trajs n].
Proof.
pose m := Pos_gle 1 (lin1 R).
pose kern := [:: 0 : 'M[R]_1; 0]; pose trajs := [:: const_obs 2 (1 : R); const_obs 3 (0 : R)].
have H t : List.In t trajs -> [/\ (1 < size t)%N, (size kern <= size t)%N & evenly_sampled 1 t].
  by case=> [<-|[<-|]] //; split=> //; exact: const_obs_even.
have [|C [E sC HC]] := @C73_weighted_partial R 1 1 m 1 1 (Ek m) 0 [:: 0; 1] kern (Some MRect) (LNone R 1 1) (fun=> 1) trajs isT isT erefl.
  by move=> t /H[? ? ?]; split=> //; rewrite size_map.
exists m, 0, [:: 0; 1], kern, trajs, C, 1%N; split=> //.
rewrite HC // /all_windows_average /trajs !big_cons !big_nil !addr0 !addn0 /window_average /left_values !size_map.
have := const_obs_sum 2 (1 : R) 1; have := const_obs_sum 3 (0 : R) 1; rewrite !size_map => e3 e2.
rewrite !size_iota in e2 e3 *; rewrite -!/(residual _ _) e2 e3 => /matrixP/(_ 0 0).
rewrite !mxE /= !(mulr0, mulr1, addr0, mulr1n, mul1r, invr1, mul0rn).
move/eqP; rewrite -[X in _ == X]mul1r eqr_div ?pnatr_eq0 // mul1r -natrM eqr_nat.
by [].
Qed.
Print Assumptions C73_all_windows_refuted.

(** A callable [left_op] and two trajectories: unit velocity and zero observable with kernel
    (1, 1), constant observable 2 at rest.  At lag 1 the averages are 1 and 2. *)
Example C73_example (R : realFieldType) :
  let m := Pos_gle 1 (lin1 R) in
  let l := LFun (fun t : seq (sample R 1 1) => nseq (size t) (1%:M : 'rV[R]_1)) in
  let trajs := [:: still_traj R; const_obs 3 (2%:R : R)] in
  exists C, compute_projected_corrs (m := m) (Ek m) (Some 0) (Some ([:: 0; 1], [:: 1%:M; 1%:M])) (Some MRect) l trajs
      = Ok ([:: 0; 1], C) /\ C`_1 = (3%:R / 2%:R)%:M.
Proof.
move=> m l trajs; pose kern := [:: 1%:M : 'M[R]_1; 1%:M].
have [|C [E sC HC]] := @C73_weighted_partial R 1 1 m 1 1 (Ek m) 0 [:: 0; 1] kern (Some MRect) l (fun=> 1) trajs isT isT erefl.
  by move=> t; case=> [<-|[<-|]] //; split=> //; [exact: still_even | exact: const_obs_even].
exists C; split; first exact: E.
rewrite HC // /trajs !big_cons big_nil addr0.
have w (t : seq (sample R 1 1)) (a : R) : size t = 3%N ->
    (forall s, (s < 2)%N -> noise_by (Some MRect) 1 (residual (m := m) 0 t) kern [seq Ek m s | s <- t] s 1 = a%:M) ->
    window_average (left_values (m := m) 0 t l) (noise_by (Some MRect) 1 (residual (m := m) 0 t) kern [seq Ek m s | s <- t]) 1 = a%:M.
  move=> st H; rewrite /window_average size_nseq st (eq_bigr (fun=> a%:M)); last first.
    move=> s _; rewrite H; last exact: (ltn_ord s).
    rewrite nth_nseq st (leq_trans (ltn_ord s)) //; first by rewrite trmx1 mul1mx.
  rewrite sumr_const card_ord -scaler_nat scalerA mulVf ?scale1r // pnatr_eq0.
  by [].
rewrite (w _ 1) //; last first.
  move=> s s2; rewrite /noise_by /noise_rect /rect_rule big_ord1 /mem_integrand scale1r subn0 mulmx1.
  by case: s s2 => [|[|s]] //= _; rewrite mulmx0 subr0 add0r; apply/matrixP => i j;
    rewrite /= /grad_dot !mxE big_ord1 !ord1 !mxE mulr1.
rewrite (w _ 2%:R) //; last first.
  move=> s s2; rewrite /noise_by /noise_rect /rect_rule big_ord1 /mem_integrand scale1r subn0 mulmx1.
  by case: s s2 => [|[|s]] //= _; rewrite mulmx0 subr0 -[RHS]addr0; congr (_ + _); apply/matrixP => i j;
    rewrite /= /grad_dot !mxE big_ord1 !ord1 !mxE mulr0.
apply/matrixP => i j; rewrite !mxE !ord1 eqxx !mulr1n mulr1 /=.
have -> : 6%:R = 3%:R * 2%:R :> R by rewrite -natrM.
rewrite invfM !mulrA divff ?pnatr_eq0 // mul1r mulVf ?pnatr_eq0 //.
by rewrite -[X in _ + X](@divff _ 2%:R) ?pnatr_eq0 // -[X in X + _]mul1r -mulrDl -{1}(mulr1n 1) -natrD.
Qed.
