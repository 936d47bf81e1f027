(** * Properties C40, C41, C42 and C54: finite differences, time axis, histogram. *)
From mathcomp Require Import all_ssreflect all_algebra.
From mathcomp Require Import zify.
From Verif Require Import Base Frames FramesProofs FramesProofs2 DescribeProofs.
Set Implicit Arguments.
Unset Strict Implicit.
Unset Printing Implicit Defensive.
Import Order.TTheory GRing.Theory Num.Theory.
Local Open Scope ring_scope.

(** ** C40 *)

(** The kept samples, for any data, any placement of missing values, any weight. *)
Theorem C40_kept_samples (R : realFieldType) (d : nat) (jump thr lamb dt : R) (time : seq R)
    (x : seq 'rV[option R]_d.+1) :
  compute_va false jump thr lamb dt time x =
  [seq (time`_t, value x t,
        dt^-1 *: (lamb *: (value x t.+1 - value x t) + (1 - lamb) *: (value x t - value x t.-1)),
        (dt ^+ 2)^-1 *: ((value x t.+1 - value x t) - (value x t - value x t.-1)))
  | t <- iota 0 (size x) & interior x t].
Proof. exact: compute_vaE. Qed.
Print Assumptions C40_kept_samples.

(** Exactness on quadratics of time. *)
Theorem C40_exact_va (R : realFieldType) (d : nat) (c0 c1 c2 : 'rV[R]_d.+1) (t0 dt jump thr : R)
    (time : seq R) (x : seq 'rV[option R]_d.+1) :
  dt != 0 ->
  (forall t a, valid_at x t = Some a -> a = c0 + (t0 + t%:R * dt) *: c1 + (t0 + t%:R * dt) ^+ 2 *: c2) ->
  (forall t, (t < size x)%N -> time`_t = t0 + t%:R * dt) ->
  compute_va false jump thr 2^-1 dt time x =
  [seq (time`_t, c0 + time`_t *: c1 + (time`_t) ^+ 2 *: c2, c1 + (2%:R * time`_t) *: c2, 2%:R *: c2)
  | t <- iota 0 (size x) & interior x t].
Proof. by move=> dt0 H Ht; exact: (@compute_va_exact R d c0 c1 c2 t0 dt time dt0 jump thr x H Ht). Qed.
Print Assumptions C40_exact_va.

Theorem C40_exact_a (R : realFieldType) (d : nat) (c0 c1 c2 : 'rV[R]_d.+1) (t0 dt : R)
    (time : seq R) (x v : seq 'rV[option R]_d.+1) :
  dt != 0 -> size v = size x ->
  (forall t a, valid_at x t = Some a -> a = c0 + (t0 + t%:R * dt) *: c1 + (t0 + t%:R * dt) ^+ 2 *: c2) ->
  (forall t, (t < size x)%N -> time`_t = t0 + t%:R * dt) ->
  compute_a dt time x v =
  [seq (time`_t, c0 + time`_t *: c1 + (time`_t) ^+ 2 *: c2, value v t, 2%:R *: c2)
  | t <- iota 0 (size x) & interior x t && known v t].
Proof. by move=> dt0 sv H Ht; exact: (@compute_a_exact R d c0 c1 c2 t0 dt time dt0 x v H sv Ht). Qed.
Print Assumptions C40_exact_a.

Theorem C40_exact_a_from_vel (R : realFieldType) (d : nat) (c0 c1 c2 : 'rV[R]_d.+1) (t0 dt : R)
    (time : seq R) (x v : seq 'rV[option R]_d.+1) :
  dt != 0 -> size v = size x ->
  (forall t a, valid_at v t = Some a -> a = c0 + (t0 + t%:R * dt) *: c1 + (t0 + t%:R * dt) ^+ 2 *: c2) ->
  (forall t, (t < size x)%N -> time`_t = t0 + t%:R * dt) ->
  compute_a_from_vel dt time x v =
  [seq (time`_t, value x t, c0 + time`_t *: c1 + (time`_t) ^+ 2 *: c2, c1 + (2%:R * time`_t) *: c2)
  | t <- iota 0 (size x) & interior v t && known x t].
Proof. by move=> dt0 sv H Ht; exact: (@compute_a_from_vel_exact R d c0 c1 c2 t0 dt time dt0 x v H sv Ht). Qed.
Print Assumptions C40_exact_a_from_vel.

(** The "gjf" variant returns the velocity half a step earlier. *)
Theorem C40_gjf_half_step (R : realFieldType) (d : nat) (c0 c1 c2 : 'rV[R]_d.+1) (t0 dt jump thr : R)
    (time : seq R) (x : seq 'rV[option R]_d.+1) :
  dt != 0 ->
  (forall t a, valid_at x t = Some a -> a = c0 + (t0 + t%:R * dt) *: c1 + (t0 + t%:R * dt) ^+ 2 *: c2) ->
  (forall t, (t < size x)%N -> time`_t = t0 + t%:R * dt) ->
  compute_va_gjf false jump thr dt time x =
  [seq (time`_t, c0 + time`_t *: c1 + (time`_t) ^+ 2 *: c2,
        c1 + (2%:R * (time`_t - dt / 2%:R)) *: c2, 2%:R *: c2)
  | t <- iota 0 (size x) & interior x t].
Proof. by move=> dt0 H Ht; exact: (@compute_va_gjf_exact R d c0 c1 c2 t0 dt time dt0 jump thr x H Ht). Qed.
Print Assumptions C40_gjf_half_step.

(** Six samples of s^2, the last but one missing: exactly the samples 1 and 2 are kept. *)
Example C40_example (R : realFieldType) :
  let q t := some_row ((const_mx (t%:R ^+ 2) : 'rV[R]_1)) in
  let x := [:: q 0%N; q 1%N; q 2%N; q 3%N; nan_row R 1; q 5%N] in
  let time := mkseq (fun i => i%:R) 6 in
  compute_va false 0 0 2^-1 1 time x =
  [:: (1, const_mx 1, const_mx 2%:R, const_mx 2%:R);
      (2%:R, const_mx 4%:R, const_mx 4%:R, const_mx 2%:R)].
Proof.
move=> q x time.
have V t : valid_at x t = if (t < 6)%N && (t != 4%N) then Some (const_mx (t%:R ^+ 2)) else None.
  have N : all_some (nan_row R 1) = None :> option 'rV[R]_1.
    by rewrite /all_some; case: forallP => // /(_ 0); rewrite mxE.
  by rewrite /valid_at; move: t; do 6 (case=> [|]; rewrite ?all_some_some ?N //).
rewrite (@C40_exact_va R 0 0 0 (const_mx 1) 0 1 0 0 time x) //; first last.
- by move=> t lt; rewrite nth_mkseq // mulr1 add0r.
- move=> t a; rewrite V; case: ifP => // _ [<-].
  by apply/matrixP => i j; rewrite !mxE mulr1 !add0r !(mulr0, mulr1, add0r).
- exact: oner_neq0.
rewrite [[seq _ | _ <- _]](_ : _ = [seq (time`_t, 0 + time`_t *: 0 + time`_t ^+ 2 *: const_mx 1,
   0 + (2%:R * time`_t) *: const_mx 1, 2%:R *: const_mx 1) | t <- [:: 1%N; 2%N]]); last first.
  have I t : interior x t = [&& (0 < t)%N, (t.-1 < 6)%N && (t.-1 != 4%N), (t < 6)%N && (t != 4%N)
                                & (t.+1 < 6)%N && (t.+1 != 4%N)].
    by rewrite /interior /known !V; case: (_ && (t.-1 != _)); case: (_ && (t != _)); case: (_ && (t.+1 != _)).
  by congr map; rewrite (eq_filter I).
rewrite /= !add0r !scaler0 !add0r; congr [:: (_, _, _, _); (_, _, _, _)];
  apply/matrixP => i j; rewrite !mxE ?mulr1 ?expr1n //.
- by rewrite -natrX.
- by rewrite -natrM.
Qed.

(** ** C41 *)
Theorem C41_unwraps (R : realFieldType) (d : nat) (P thr lamb dt : R) (k : nat -> 'I_d.+1 -> int)
    (time : seq R) (y : seq 'rV[option R]_d.+1) :
  (forall t j a b, nth (nan_row R d.+1) y t 0 j = Some a -> nth (nan_row R d.+1) y t.+1 0 j = Some b ->
     [/\ `|b - a| < thr, `|b - a| <= P - thr & `|k t.+1 j - k t j| <= 1]) ->
  let x := mkseq (fun t => \matrix_(i, j) omap (fun v => v - P * (k t j)%:~R) (nth (nan_row R d.+1) y t i j)) (size y) in
  [seq (s.1.1.1, s.1.2, s.2) | s : out_sample R d.+1 <- compute_va true P thr lamb dt time x]
  = [seq (s.1.1.1, s.1.2, s.2) | s : out_sample R d.+1 <- compute_va false P thr lamb dt time y].
Proof. by move=> H; apply: (@jumps_va R d P thr k). Qed.
Print Assumptions C41_unwraps.

Theorem C41_unwraps_gjf (R : realFieldType) (d : nat) (P thr dt : R) (k : nat -> 'I_d.+1 -> int)
    (time : seq R) (y : seq 'rV[option R]_d.+1) :
  (forall t j a b, nth (nan_row R d.+1) y t 0 j = Some a -> nth (nan_row R d.+1) y t.+1 0 j = Some b ->
     [/\ `|b - a| < thr, `|b - a| <= P - thr & `|k t.+1 j - k t j| <= 1]) ->
  let x := mkseq (fun t => \matrix_(i, j) omap (fun v => v - P * (k t j)%:~R) (nth (nan_row R d.+1) y t i j)) (size y) in
  [seq (s.1.1.1, s.1.2, s.2) | s : out_sample R d.+1 <- compute_va_gjf true P thr dt time x]
  = [seq (s.1.1.1, s.1.2, s.2) | s : out_sample R d.+1 <- compute_va_gjf false P thr dt time y].
Proof. by move=> H; apply: (@jumps_va_gjf R d P thr k). Qed.
Print Assumptions C41_unwraps_gjf.

(** A trajectory moving by one unit per step, wrapped with period six after the third sample:
    the hypotheses hold and the wrapped data really jump. *)
Example C41_example (R : realFieldType) :
  let y := mkseq (fun t => some_row ((const_mx t%:R : 'rV[R]_1))) 6 in
  let k := (fun (t : nat) (_ : 'I_1) => (2 < t)%N%:Z) : nat -> 'I_1 -> int in
  (forall t j a b, nth (nan_row R 1) y t 0 j = Some a -> nth (nan_row R 1) y t.+1 0 j = Some b ->
     [/\ `|b - a| < 3%:R, `|b - a| <= 6%:R - 3%:R & `|k t.+1 j - k t j| <= 1])
  /\ nth (nan_row R 1) (wrapped 6%:R k y) 3 = some_row (const_mx (- 3%:R)).
Proof.
move=> y k; split; last first.
  rewrite nth_mkseq // nth_mkseq //; apply/matrixP => i j; rewrite !mxE /=; congr Some.
  have E6 : 6%:R = 3%:R + 3%:R :> R by rewrite -natrD.
  by rewrite mulr1 E6 opprD addrA subrr sub0r.
move=> t j a b; have [lt|ge] := ltnP t.+1 6; last by rewrite [nth _ y t.+1]nth_default ?size_mkseq // mxE.
rewrite !nth_mkseq ?(ltnW lt) // !mxE => -[<-] [<-].
have -> : t.+1%:R - t%:R = 1 :> R by rewrite -addn1 natrD addrAC subrr add0r.
rewrite normr1 -natrB // ltr1n ler1n; split=> //.
by rewrite /k; case: (2 < t.+1)%N; case: (2 < t)%N.
Qed.

(** ** C42 *)

(** Times are [i * dt], [dt] given or the rounded first step. *)
Theorem C42_fixed_partial (R : realFieldType) (d : nat) (round : R -> int) (x : seq 'rV[R]_d)
    (time : seq R) v a (rt dt : R) f :
  (forall r, `|(round r)%:~R - r| <= 2^-1) -> 0 < rt ->
  xframe round x time v a true rt dt = Ok f ->
  [/\ f_time f = mkseq (fun i => i%:R * f_dt f) (size x), (1 < size x)%N, f_x f = x,
      0 <= dt -> f_dt f = dt
    & dt < 0 -> (1 < size time)%N /\
        exists n : int, f_dt f = n%:~R * rt /\ `|f_dt f - (time`_1 - time`_0)| <= rt / 2%:R].
Proof.
move=> Hr r0 /xframe_fixed[? ? ? ? H]; split=> // d0; have [s1 E] := H d0; split=> //.
by exists (round ((time`_1 - time`_0) / rt)); rewrite E; split=> //; apply: rounded_step.
Qed.
Print Assumptions C42_fixed_partial.

Theorem C42_plain_partial (R : realFieldType) (d : nat) (round : R -> int) (x : seq 'rV[R]_d)
    (time : seq R) v a (rt dt : R) f :
  xframe round x time v a false rt dt = Ok f ->
  [/\ f_time f = time, f_dt f = time`_1 - time`_0, f_x f = x & size time = size x].
Proof. by case/xframe_plain. Qed.
Print Assumptions C42_plain_partial.

Theorem C42_accepted_partial (R : realFieldType) (d : nat) (round : R -> int) (x : seq 'rV[R]_d)
    (time : seq R) v a fix_time (rt dt : R) :
  (1 < size x)%N -> size time = size x -> rt != 0 ->
  (forall q, v = Some q -> size q = size x) ->
  (forall q, a = Some q -> size q = size x) ->
  (isSome a -> isSome v) ->
  exists f, xframe round x time v a fix_time rt dt = Ok f.
Proof. exact: xframe_success. Qed.
Print Assumptions C42_accepted_partial.

(** An acceleration without a velocity is never accepted: well-formed data, refused. *)
Theorem C42_acceleration_alone_refuted (R : realFieldType) : exists (round : R -> int) (x : seq 'rV[R]_1)
    (time : seq R) (a : seq 'rV[R]_1),
  [/\ (1 < size x)%N, size time = size x, size a = size x,
      exists f, xframe round x time None None false 1 (-1) = Ok f
    & xframe round x time None (Some a) false 1 (-1) = Err KeyError].
Proof.
exists (fun=> 0), [:: 0; 0], [:: 0; 1], [:: 0; 0]; split=> //.
by apply: xframe_success => //; rewrite oner_neq0.
Qed.
Print Assumptions C42_acceleration_alone_refuted.

(** Three samples at times 0, 0.9, 2 framed with a time unit of one half: the step is 1. *)
Example C42_example (R : realFieldType) :
  let round r : int := if r == 9%:R / 5%:R then 2 else 0 in
  let x := [:: const_mx 1; const_mx 3%:R; const_mx 4%:R] : seq 'rV[R]_1 in
  exists2 f, xframe round x [:: 0; 9%:R / 10%:R; 2%:R] None None true 2^-1 (-1) = Ok f
    & f_time f = [:: 0; 1; 2%:R] /\ f_dt f = 1.
Proof.
move=> round x.
have [||||||f E] := @C42_accepted_partial R 1 round x [:: 0; 9%:R / 10%:R; 2%:R] None None true 2^-1 (-1) => //.
  by rewrite invr_eq0 pnatr_eq0.
exists f => //; have [Et _ _ _ H] := xframe_fixed E.
have [|_] := H _; first by rewrite ltrN10.
rewrite /= subr0 invrK -mulrA (_ : 10%:R^-1 * 2%:R = 5%:R^-1) ?/round ?eqxx => [Ed|].
  have {}Ed : f_dt f = 1 by rewrite Ed mulfV // pnatr_eq0.
  by split=> //; rewrite Et Ed /mkseq /= !mulr1.
by rewrite (_ : 10%:R = 5%:R * 2%:R) ?invfM ?mulfVK ?pnatr_eq0 // -natrM.
Qed.

(** ** C54 *)

(** The result is a probability: every sample strictly above the smallest value is counted once. *)
Theorem C54_histogram_partial (R : realFieldType) (trajs : seq (seq R)) (bins : nat) xfa pf :
  hist_1d trajs bins = Ok (xfa, pf) ->
  [/\ size pf = bins.-1, forall p, p \in pf -> 0 <= p, \sum_(p <- pf) p = 1
    & exists lo hi, let e := linspace lo hi bins in
      [/\ is_min lo (flatten trajs), is_max hi (flatten trajs), lo < hi
        & pf = mkseq (fun i => (count (fun x => (e`_i < x) && (x <= e`_i.+1)) (flatten trajs))%:R
                       / (count (fun x => lo < x) (flatten trajs))%:R) bins.-1]].
Proof.
move=> H; have [? ? ?] := hist_1d_prob H; split=> //.
by have [lo [hi [? ? ? _ [_ -> _]]]] := hist_1dE H; exists lo, hi.
Qed.
Print Assumptions C54_histogram_partial.

Theorem C54_success_partial (R : realFieldType) (trajs : seq (seq R)) (bins : nat) lo hi :
  (1 < bins)%N -> is_min lo (flatten trajs) -> is_max hi (flatten trajs) -> (0 < size trajs)%N ->
  (exists r, hist_1d trajs bins = Ok r) <-> (lo < hi /\ forall t, t \in trajs -> has (fun x => lo < x) t).
Proof. exact: hist_1d_success. Qed.
Print Assumptions C54_success_partial.

(** The smallest sample is not counted. *)
Theorem C54_minimum_refuted (R : realFieldType) : exists (trajs : seq (seq R)) bins xfa pf,
  hist_1d trajs bins = Ok (xfa, pf) /\
  ~ exists c : seq nat, sumn c = size (flatten trajs) /\ pf = [seq k%:R / (size (flatten trajs))%:R | k <- c].
Proof. exact: min_not_counted_refuted. Qed.
Print Assumptions C54_minimum_refuted.

(** Non-empty trajectories taking two values, one of them at rest at the minimum: an error. *)
Theorem C54_resting_trajectory_refuted (R : realFieldType) : exists (trajs : seq (seq R)) bins,
  [/\ forall t, t \in trajs -> (0 < size t)%N, (1 < bins)%N, (1 < size (undup (flatten trajs)))%N
    & hist_1d trajs bins = Err ValueError].
Proof. exact: constant_traj_refuted. Qed.
Print Assumptions C54_resting_trajectory_refuted.

Example C54_example (R : realFieldType) : exists r, hist_1d [:: [:: 0; 1; 2%:R : R]] 3 = Ok r.
Proof. exact: three_hist. Qed.
