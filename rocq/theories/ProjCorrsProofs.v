(** * Correlations with the noise averaged over the trajectories: proofs. *)
From mathcomp Require Import all_ssreflect all_algebra.
From mathcomp Require Import zify.
From Verif Require Import Base Tactics FKernel Model Estimator EstimatorSpec Quadrature MemorySpec EstimatorProofs NoiseCorr ProjCorrs.
Set Implicit Arguments.
Unset Strict Implicit.
Unset Printing Implicit Defensive.
Import GRing.Theory Num.Theory.
Local Open Scope ring_scope.

(** What is correlated with the noise on the trajectory [t]: the observable minus the mean
    force without [left_op], the result of the callable, or the array given. *)
Definition left_values (R : realFieldType) (dx o : nat) (m : model_fns R dx o) (c : 'M[R]_(mf m, o))
    (t : seq (sample R dx o)) q (l : left_op R dx o q) : seq 'rV[R]_q :=
  match l with
  | LNone => residual c t
  | LFun _ f => f t
  | LArray _ a => a
  end.

(** Discretised noise: started at sample [t], at lag [n], by the rule of the method. *)
Definition noise_by (R : realFieldType) (d o : nat) (mt : option volterra_method) (h : R) (xi : seq 'rV[R]_o)
    (K : seq 'M[R]_(d, o)) (E : seq 'rV[R]_d) : nat -> nat -> 'rV[R]_o :=
  match mt with Some MTrapz | Some MSecondTrapz => noise_trapz h xi K E | _ => noise_rect h xi K E end.

Definition lags (mt : option volterra_method) (L : nat) : nat :=
  match mt with Some MTrapz | Some MSecondTrapz => L.-1 | _ => L end.

Definition usable (mt : option volterra_method) : bool :=
  match mt with None | Some MRect | Some MSecondRect | Some MTrapz | Some MSecondTrapz => true | _ => false end.

Section Loop.
Variables (R : realFieldType) (q o : nat).
Implicit Types (x : seq R * seq 'M[R]_(q, o)).
Local Notation V := (seq R * seq 'M[R]_(q, o))%type.

Lemma fold_pair (L : nat) (x : V) (vs : seq V) :
  (forall v, List.In v (x :: vs) -> size v.1 = L /\ size v.2 = L) ->
  foldl (fun acc u => let! acc := acc in @add_pair R o q acc u) (Ok x) vs
  = Ok (mkseq (fun i => \sum_(v <- x :: vs) v.1`_i) L, mkseq (fun i => \sum_(v <- x :: vs) v.2`_i) L).
Proof.
elim: vs x => [|v vs IH] x H /=.
  have [s1 s2] := H x (or_introl erefl); rewrite [x in LHS]surjective_pairing; congr (Ok (_, _)).
    by apply: (@eq_from_nth _ 0); rewrite ?size_mkseq // s1 => i il; rewrite nth_mkseq // big_seq1.
  by apply: (@eq_from_nth _ 0); rewrite ?size_mkseq // s2 => i il; rewrite nth_mkseq // big_seq1.
have [s1 s2] := H x (or_introl erefl); have [t1 t2] := H v (or_intror (or_introl erefl)).
rewrite /add_pair /addseq s1 t1 s2 t2 !eqxx /= IH; last first.
  by move=> u /= [<-|hu]; [rewrite !size_mkseq | apply: H; right; right].
congr (Ok (_, _)).
  apply: (@eq_from_nth _ 0); rewrite ?size_mkseq // => i il.
  by rewrite !nth_mkseq // !big_cons /= nth_mkseq // addrA.
apply: (@eq_from_nth _ 0); rewrite ?size_mkseq // => i il.
by rewrite !nth_mkseq // !big_cons /= nth_mkseq // addrA.
Qed.

(** Average of results with the same times. *)
Lemma loop_pair (T : Type) (ts : seq R) (C : seq T -> seq 'M[R]_(q, o)) (f : seq T -> res V) (trajs : seq (seq T)) :
  (0 < size (flatten trajs))%N ->
  (forall t, List.In t trajs -> f t = Ok (ts, C t) /\ size (C t) = size ts) ->
  loop_over_trajs (@scale_pair R o q) (@add_pair R o q) size (fun _ t => f t) trajs
  = Ok (ts, mkseq (fun n => \sum_(t <- trajs) ((size t)%:R / (size (flatten trajs))%:R) *: (C t)`_n) (size ts)).
Proof.
move=> W0 H; rewrite /loop_over_trajs.
have -> : mapM (fun p : nat * seq T => f p.2) (zip [seq size t | t <- trajs] trajs) = Ok [seq (ts, C t) | t <- trajs].
  by elim: trajs H {W0} => //= t l IH H; have [-> _] := H t (or_introl erefl); rewrite /= IH // => u lu; apply: H; right.
rewrite /= /combine.
have Wne : (size (flatten trajs))%:R != 0 :> R by rewrite pnatr_eq0 -lt0n.
have -> : (sumn [seq size t | t <- trajs])%:R = (size (flatten trajs))%:R :> R by rewrite size_flatten.
set W := (_)%:R in Wne *.
have -> : [seq scale_pair (p.1%:R / W) p.2 | p <- zip [seq size t | t <- trajs] [seq (ts, C t) | t <- trajs]]
        = [seq scale_pair ((size t)%:R / W) (ts, C t) | t <- trajs].
  by elim: (trajs) => //= t l ->.
have w1 : \sum_(t <- trajs) (size t)%:R / W = 1.
  rewrite -mulr_suml -natr_sum -[X in X%:R](_ : size (flatten trajs) = _) ?divff //.
  by rewrite size_flatten sumnE big_map.
have /= F := fun x vs => @fold_pair (size ts) x vs.
have sz : forall v, List.In v [seq scale_pair ((size t)%:R / W) (ts, C t) | t <- trajs] -> size v.1 = size ts /\ size v.2 = size ts.
  elim: (trajs) H => //= t l IH H v [<-|lv]; last by apply: IH => // u lu; apply: H; right.
  by rewrite !size_map; have [_ ->] := H t (or_introl erefl).
have sumE : [/\ mkseq (fun i => \sum_(v <- [seq scale_pair ((size t)%:R / W) (ts, C t) | t <- trajs]) v.1`_i) (size ts) = ts
    & mkseq (fun i => \sum_(v <- [seq scale_pair ((size t)%:R / W) (ts, C t) | t <- trajs]) v.2`_i) (size ts)
      = mkseq (fun n => \sum_(t <- trajs) ((size t)%:R / W) *: (C t)`_n) (size ts)].
  split; apply: (@eq_from_nth _ 0); rewrite ?size_mkseq // => i il; rewrite !nth_mkseq // big_map /=.
    by under eq_bigr do rewrite (nth_map 0) //; rewrite -mulr_suml w1 mul1r.
  elim: (trajs) H => [|t l IH] H; first by rewrite !big_nil.
  rewrite !big_cons IH => [|u lu]; last by apply: H; right.
  by rewrite (nth_map 0) //; have [_ ->] := H t (or_introl erefl).
case: sumE; move: sz; case E: [seq _ | t <- trajs] => [|v vs] sz e1 e2.
  by case: (trajs) W0 E.
by rewrite F // e1 e2.
Qed.

End Loop.

Section Main.
Variables (R : realFieldType) (dx o : nat) (m : model_fns R dx o) (d q : nat).
Local Notation smp := (sample R dx o).
Variable proj : smp -> 'rV[R]_d.

Lemma one_traj c times kern mt xva (left : seq 'rV[R]_q) h :
  usable mt -> (1 < size xva)%N -> evenly_sampled h xva -> size left = size xva ->
  size times = size kern -> (size kern <= size xva)%N ->
  exists C,
    [/\ compute_corrs_w_noise (m := m) proj (Some c) (Some (times, kern)) mt xva left = Ok (take (lags mt (size kern)) times, C),
        size C = lags mt (size kern)
      & forall n, (n < lags mt (size kern))%N ->
          C`_n = window_average left (noise_by mt h (residual c xva) kern [seq proj s | s <- xva]) n].
Proof.
move=> us sx ev sl st sk.
have rectcase : mt = None \/ mt = Some MRect \/ mt = Some MSecondRect ->
    lags mt (size kern) = size kern /\ (forall h xi K E, @noise_by R d o mt h xi K E = noise_rect h xi K E).
  by case=> [->|[->|->]].
have trapcase : mt = Some MTrapz \/ mt = Some MSecondTrapz ->
    lags mt (size kern) = (size kern).-1 /\ (forall h xi K E, @noise_by R d o mt h xi K E = noise_trapz h xi K E).
  by case=> ->.
have [ok|ok] : (mt = None \/ mt = Some MRect \/ mt = Some MSecondRect) \/ (mt = Some MTrapz \/ mt = Some MSecondTrapz).
  by case: mt us {rectcase trapcase} => [[]|] // _; auto.
- have [-> nE] := rectcase ok.
  have [C [E sC HC]] := corrs_noise_rect (m := m) proj c ok sx ev sl st sk.
  by exists C; rewrite -[in take _ _]st take_size; split=> // n ln; rewrite HC // nE.
have [-> nE] := trapcase ok.
have [ts [C [E sts sC Hts HC]]] := corrs_noise_trapz (m := m) proj c ok sx ev sl st sk.
exists C; split=> // [|n ln]; last by rewrite HC // nE.
rewrite E; congr (Ok (_, _)); apply: (@eq_from_nth _ 0); first by rewrite sts size_takel // st leq_pred.
by rewrite sts => i il; rewrite Hts // nth_take.
Qed.

(** What [left_op] must provide. *)
Definition left_fits (c : 'M[R]_(mf m, o)) (l : left_op R dx o q) (t : seq smp) : Prop :=
  size (left_data c t l) = size t.

(** The average over the trajectories, each weighted by its number of samples. *)
Lemma projected_weighted c times kern mt (l : left_op R dx o q) (h : seq smp -> R) (trajs : seq (seq smp)) :
  usable mt -> (0 < size trajs)%N -> size times = size kern ->
  (forall t, List.In t trajs ->
     [/\ (1 < size t)%N, (size kern <= size t)%N, evenly_sampled (h t) t & left_fits c l t]) ->
  exists C,
    [/\ compute_projected_corrs proj (Some c) (Some (times, kern)) mt l trajs = Ok (take (lags mt (size kern)) times, C),
        size C = lags mt (size kern)
      & forall n, (n < lags mt (size kern))%N ->
          C`_n = \sum_(t <- trajs) ((size t)%:R / (size (flatten trajs))%:R) *:
                   window_average (left_data c t l)
                     (noise_by mt (h t) (residual c t) kern [seq proj s | s <- t]) n].
Proof.
move=> us n0 st H.
have lle : (lags mt (size kern) <= size kern)%N by rewrite /lags; case: mt {us} => [[]|] //; rewrite leq_pred.
pose CC t := mkseq (fun n => window_average (left_data c t l)
     (noise_by mt (h t) (residual c t) kern [seq proj s | s <- t]) n) (lags mt (size kern)).
have sts : size (take (lags mt (size kern)) times) = lags mt (size kern) by rewrite size_takel // st.
have W0 : (0 < size (flatten trajs))%N.
  by case: trajs n0 H => // t l' _ H /=; have [s1 _ _ _] := H t (or_introl erefl); rewrite size_cat; lia.
have P t : List.In t trajs -> corrs_one proj (Some c) (Some (times, kern)) mt l t = Ok (take (lags mt (size kern)) times, CC t)
    /\ size (CC t) = size (take (lags mt (size kern)) times).
  move=> lt; have [s1 sk ev fit] := H t lt; split; last by rewrite size_mkseq sts.
  have [C [E sC HC]] := one_traj c us s1 ev fit st sk.
  rewrite /corrs_one E; congr (Ok (_, _)); apply: (@eq_from_nth _ 0); rewrite ?size_mkseq // sC => i il.
  by rewrite HC // nth_mkseq.
eexists; split; first by rewrite /compute_projected_corrs (loop_pair W0 P).
  by rewrite size_mkseq sts.
move=> n ln; rewrite nth_mkseq ?sts //.
by apply: eq_bigr => t _; rewrite /CC nth_mkseq.
Qed.

(** Average over the windows of all the trajectories. *)
Definition all_windows_average (left : seq smp -> seq 'rV[R]_q) (noise : seq smp -> nat -> nat -> 'rV[R]_o)
    (trajs : seq (seq smp)) (n : nat) : 'M[R]_(q, o) :=
  (\sum_(t <- trajs) (size t - n)%N)%:R^-1 *:
    \sum_(t <- trajs) \sum_(s < size t - n) ((left t)`_s)^T *m noise t s n.

Lemma projected_same_length c times kern mt (l : left_op R dx o q) (h : seq smp -> R) (N : nat) (trajs : seq (seq smp)) :
  usable mt -> (0 < size trajs)%N -> size times = size kern -> (1 < N)%N -> (size kern <= N)%N ->
  (forall t, List.In t trajs -> [/\ size t = N, evenly_sampled (h t) t & left_fits c l t]) ->
  exists C,
    [/\ compute_projected_corrs proj (Some c) (Some (times, kern)) mt l trajs = Ok (take (lags mt (size kern)) times, C),
        size C = lags mt (size kern)
      & forall n, (n < lags mt (size kern))%N ->
          C`_n = all_windows_average (fun t => left_data c t l)
                   (fun t => noise_by mt (h t) (residual c t) kern [seq proj s | s <- t]) trajs n].
Proof.
move=> us n0 st N1 kN H.
have lle : (lags mt (size kern) <= size kern)%N by rewrite /lags; case: mt {us} => [[]|] //; rewrite leq_pred.
have [|C [E sC HC]] := @projected_weighted c times kern mt l h trajs us n0 st.
  by move=> t lt; have [-> ev fit] := H t lt.
exists C; split=> // n ln; rewrite HC // /all_windows_average.
have sW : size (flatten trajs) = (size trajs * N)%N.
  elim: (trajs) H => //= t l' IH H; rewrite size_cat IH => [|u lu]; last by apply: H; right.
  by have [-> _ _] := H t (or_introl erefl); rewrite mulSn.
have sV : (\sum_(t <- trajs) (size t - n) = size trajs * (N - n))%N.
  elim: (trajs) H => [|t l' IH] H; first by rewrite big_nil.
  rewrite big_cons IH => [|u lu]; last by apply: H; right.
  by have [-> _ _] := H t (or_introl erefl); rewrite /= mulSn.
rewrite sW sV; set T := (size trajs)%:R : R.
have T0 : T != 0 by rewrite pnatr_eq0 -lt0n.
have : (0 < N - n)%N by lia.
rewrite !natrM -/T; move: T T0 => T T0 Nn.
elim: (trajs) H => [|t l' IH] H; first by rewrite !big_nil scaler0.
rewrite !big_cons scalerDr IH => [|u lu]; last by apply: H; right.
congr (_ + _); have [sN _ fit] := H t (or_introl erefl).
rewrite /window_average fit sN scalerA; congr (_ *: _).
by rewrite !invfM [N%:R * _]mulrCA mulfV ?mulr1 // pnatr_eq0; lia.
Qed.

End Main.

(** An array given for [left_op] must have the length of every trajectory. *)
Lemma projected_array (R : realFieldType) dx o (m : model_fns R dx o) d q (proj : sample R dx o -> 'rV[R]_d)
    force kernel mt (a : seq 'rV[R]_q) trajs t :
  List.In t trajs -> size t <> size a ->
  exists e, @compute_projected_corrs R dx o m d proj force kernel mt q (LArray dx o a) trajs = Err e.
Proof.
move=> lt ne; rewrite /compute_projected_corrs /loop_over_trajs.
have [e E] : exists e, corrs_one proj force kernel mt (LArray dx o a) t = Err e.
  rewrite /corrs_one /compute_corrs_w_noise; case: force => [c|]; last by eexists.
  case: kernel => [[times kern]|]; last by eexists.
  case: (rd _ 1) => [t1|e]; last by eexists.
  case: (rd _ 0) => [t0|e]; last by eexists.
  rewrite [bind _ _]/= [bind _ _]/=.
  have g : size a == size t = false by apply/negbTE/eqP => e; apply: ne.
  by case: mt => [[]|]; rewrite /corrs_rect /corrs_trapz ?size_map ?g ?andbF; eexists.
have [e' ->] : exists e', mapM (fun p : nat * seq (sample R dx o) => corrs_one proj force kernel mt (LArray dx o a) p.2)
                 (zip [seq size t | t <- trajs] trajs) = Err e'; last by eexists.
elim: trajs lt => //= u l IH [->|lt]; first by rewrite E; eexists.
case: (corrs_one _ _ _ _ _ u) => [x|e1]; last by eexists.
by have [e' E'] := IH lt; rewrite /= E'; eexists.
Qed.
