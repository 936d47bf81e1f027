(** * Time axis and histogram: proofs. *)
From mathcomp Require Import all_ssreflect all_algebra.
From mathcomp Require Import zify.
From Verif Require Import Base Tactics Frames DescribeProofs.
Set Implicit Arguments.
Unset Strict Implicit.
Unset Printing Implicit Defensive.
Import Order.TTheory GRing.Theory Num.Theory.
Local Open Scope ring_scope.

Section XFrame.
Variables (R : realFieldType) (d : nat).
Implicit Types (x : seq 'rV[R]_d) (time : seq R) (v a : option (seq 'rV[R]_d)).

(** [np.round]: a nearest integer. *)
Definition rounds (round : R -> int) := forall r, `|(round r)%:~R - r| <= 2^-1.

Lemma guard_ok b e (u : unit) : guard b e = Ok u -> b.
Proof. by case: b. Qed.

(** The same steps for the caller, whatever happens to the time axis. *)
Lemma xframe_fixed round x time v a rt dt f :
  xframe round x time v a true rt dt = Ok f ->
  [/\ f_time f = mkseq (fun i => i%:R * f_dt f) (size x), (1 < size x)%N, f_x f = x,
      0 <= dt -> f_dt f = dt
    & dt < 0 -> (1 < size time)%N /\ f_dt f = (round ((time`_1 - time`_0) / rt))%:~R * rt].
Proof.
rewrite /xframe => H; unbind H td Htd; unbind Htd dt' Hdt.
unbind Htd tm Htm; case: Htd H => <- /= H.
have [n1 [stm n1tm oth]] : (1 < size x)%N /\ [/\ size tm = size x, tm`_1 = dt' &
    forall i, i != 1%N -> (i < size x)%N -> tm`_i = i%:R * (dt' * (size x).-1%:R / (size x).-1%:R)].
  move: Htm => /(wr_ok 0); rewrite size_mkseq => -[n1 s1 s2]; split=> //; split=> //.
    by rewrite s2 eqxx.
  by move=> i ni li; rewrite s2 (negbTE ni) nth_mkseq.
have Et : tm = mkseq (fun i => i%:R * dt') (size x).
  apply: (@eq_from_nth _ 0); rewrite ?size_mkseq // => i; rewrite stm => li.
  rewrite nth_mkseq //; case: (i =P 1%N) => [->|/eqP ni]; first by rewrite n1tm mul1r.
  by rewrite oth // mulfK // pnatr_eq0; lia.
have [Ef Ed Ex] : [/\ f_time f = tm, f_dt f = dt' & f_x f = x].
  unbind H u1 G1; unbind H u2 G2; case: a H => [a'|]; last by case=> <-.
  by move=> H; unbind H u3 G3; unbind H u4 G4; case: H => <-.
rewrite Ef Ed; split=> //.
  by move=> d0; move: Hdt; rewrite ltNge d0 => -[<-].
move=> d0; move: Hdt; rewrite d0 => Hdt; unbind Hdt s Hs; unbind Hs t1 Ht1; unbind Hs t0 Ht0.
unbind Hdt u1 G1; case: Hdt => <-; case: Hs => <-.
have [s1 ->] := rd_ok 0 Ht1; have [_ ->] := rd_ok 0 Ht0.
by [].
Qed.

Lemma rounded_step round (s rt : R) : rounds round -> 0 < rt ->
  `|(round (s / rt))%:~R * rt - s| <= rt / 2%:R.
Proof.
move=> H r0; have := H (s / rt); rewrite -(ler_pmul2r r0) => H1.
have E : (round (s / rt))%:~R * rt - s = ((round (s / rt))%:~R - s / rt) * rt.
  by rewrite mulrBl divfK // gt_eqF.
by rewrite E normrM (gtr0_norm r0) [rt / _]mulrC.
Qed.

Lemma xframe_plain round x time v a rt dt f :
  xframe round x time v a false rt dt = Ok f ->
  [/\ f_time f = time, f_dt f = time`_1 - time`_0, f_x f = x, size time = size x & (1 < size time)%N].
Proof.
rewrite /xframe => H; unbind H td Htd; unbind Htd s Hs; unbind Hs t1 Ht1; unbind Hs t0 Ht0.
case: Hs Htd => <- -[Etd]; rewrite -Etd /= in H.
have [s1 E1] := rd_ok 0 Ht1; have [_ E0] := rd_ok 0 Ht0; rewrite E1 E0 in H.
unbind H u1 G1; unbind H u2 G2; move/guard_ok/eqP: G1 => G1.
have [-> -> ->] : [/\ f_time f = time, f_dt f = time`_1 - time`_0 & f_x f = x].
  case: a H => [a'|]; last by case=> <-.
  by move=> H; unbind H u3 G3; unbind H u4 G4; case: H => <-.
by [].
Qed.

(** The call succeeds on every well-formed input when the velocity comes with the
    acceleration. *)
Lemma xframe_success round x time v a fix_time rt dt :
  (1 < size x)%N -> size time = size x -> rt != 0 ->
  (forall q, v = Some q -> size q = size x) ->
  (forall q, a = Some q -> size q = size x) ->
  (isSome a -> isSome v) ->
  exists f, xframe round x time v a fix_time rt dt = Ok f.
Proof.
move=> n1 st r0 Hv Ha Hav; rewrite /xframe.
have s0 : (0 < size time)%N by rewrite st; lia.
have s1 : (1 < size time)%N by rewrite st.
rewrite (rdE 0 s1) (rdE 0 s0) /= r0 /=.
have G : forall t, size t = size x -> forall dt' : R, exists f,
    (let! _ := guard (size (t, dt').1 == size x) ValueError in
     let! _ := guard (if v is Some q then size q == size x else true) ValueError in
     if a is Some q then
       let! _ := guard (isSome v) KeyError in
       let! _ := guard (size q == size x) ValueError in
       Ok (Frame (t, dt').1 (t, dt').2 x v a)
     else Ok (Frame (t, dt').1 (t, dt').2 x v None)) = Ok f.
  move=> t E dt'; rewrite /= E eqxx /=.
  have -> : (if v is Some q then size q == size x else true) = true.
    by case: v Hv {Hav} => // v' H; rewrite (H v' erefl) eqxx.
  case: a Ha Hav => [a'|] Ha Hav /=; last by eexists.
  by rewrite Hav //= (Ha a' erefl) eqxx /=; eexists.
case: fix_time => /=; last exact: G.
by case: (dt < 0) => /=; rewrite wrE ?size_mkseq //; set t := set_nth _ _ _ _;
  (have st2 : size t = size x by rewrite size_set_nth size_mkseq (maxn_idPr n1));
  move: t st2 => t st2; exact: (G t st2).
Qed.

Lemma xframe_needs_v round x time (a : seq 'rV[R]_d) fix_time rt dt f :
  xframe round x time None (Some a) fix_time rt dt <> Ok f.
Proof.
rewrite /xframe => H; unbind H td Htd; unbind H u1 G1; unbind H u2 G2.
by unbind H u3 G3.
Qed.

End XFrame.

Section Histogram.
Variable R : realFieldType.
Implicit Types (e t : seq R) (trajs : seq (seq R)).

Definition lo_hi (x : R) (l : seq R) := (foldl Num.min x l, foldl Num.max x l).

(** Number of samples in bin [i] of all the data, number of samples above the smallest. *)
Definition above (lo : R) (t : seq R) : nat := count (fun x => lo < x) t.

Lemma linspace_mono (lo hi : R) n i : (1 < n)%N -> lo < hi -> (i.+1 < n)%N ->
  (linspace lo hi n)`_i < (linspace lo hi n)`_i.+1.
Proof.
move=> n1 lh li; rewrite !nth_mkseq ?(ltnW li) // ltr_add2l ltr_pmul2r ?ltr_nat //.
by rewrite divr_gt0 ?subr_gt0 // ltr0n; lia.
Qed.

Lemma linspace_ends (lo hi : R) n : (1 < n)%N ->
  (linspace lo hi n)`_0 = lo /\ (linspace lo hi n)`_n.-1 = hi.
Proof.
move=> n1; rewrite !nth_mkseq; [|lia|lia]; rewrite mul0r addr0; split=> //.
by rewrite mulrC divfK; [rewrite addrC subrK | rewrite pnatr_eq0; lia].
Qed.

(** Counts of the bins telescope. *)
Lemma count_telescope e t k : (forall i, (i < k)%N -> e`_i <= e`_i.+1) ->
  sumn (mkseq (fun i => count (in_bin e i) t) k) = count (fun x => (e`_0 < x) && (x <= e`_k)) t.
Proof.
elim: k => [|k IH] H.
  by rewrite /= (eq_count (a2 := pred0)) ?count_pred0 // => x /=; case: ltP.
rewrite -[mkseq _ _]/(map _ _) -addn1 iotaD add0n map_cat sumn_cat /= addn0 addn1.
rewrite IH => [|i li]; last by apply: H; lia.
rewrite -count_predUI [X in (_ + X)%N = _](eq_count (a2 := pred0)) ?count_pred0 ?addn0; last first.
  by move=> x /=; rewrite /in_bin; case: (leP x e`_k); rewrite ?andbF.
have e0k : e`_0 <= e`_k.
  by elim: k {IH} H => [|k IHk] // H; apply: le_trans (IHk _) (H k _) => // i li; apply: H; lia.
apply: eq_count => x /=; rewrite /in_bin.
have ek := H k (ltnSn k).
case: (leP x e`_k) => xk; rewrite ?andbT ?andbF /= ?orbF ?orFb.
  by rewrite (le_trans xk ek) andbT.
by rewrite (le_lt_trans e0k xk).
Qed.

Lemma sumn_gt0 (c : seq nat) : (0 < sumn c)%N = has (fun n => 0 < n)%N c.
Proof. by elim: c => [|n c IH] //=; rewrite addn_gt0 IH. Qed.

Lemma count_bins_ok e t c : count_bins e t = Ok c ->
  c = mkseq (fun i => count (in_bin e i) t) (size e).-1 /\ (0 < sumn c)%N.
Proof.
rewrite /count_bins => H; unbind H u G; case: H => E; split=> //.
move/guard_ok: G; rewrite E => /hasP[k kc k0].
by rewrite sumn_gt0; apply/hasP; exists k.
Qed.

Lemma fold_counts e k : forall ts (acc : seq nat) cs, size e = k.+1 -> size acc = k ->
  mapM (count_bins e) ts = Ok cs ->
  foldl (fun acc c => mkseq (fun i => (nth 0 acc i + nth 0 c i)%N) k) acc cs
  = mkseq (fun i => (nth 0 acc i + count (in_bin e i) (flatten ts))%N) k
  /\ (0 < size ts -> 0 < sumn (mkseq (fun i => count (in_bin e i) (flatten ts)) k))%N.
Proof.
elim=> [|t ts IH] acc cs se sa /=.
  case=> <- /=; split=> //; apply: (@eq_from_nth _ 0%N); rewrite ?size_mkseq // => i li.
  by rewrite nth_mkseq ?addn0 // -sa.
move=> H; unbind H c Hc; unbind H cs' Hcs; case: H => <- /=.
have [Ec c0] := count_bins_ok Hc; rewrite se /= in Ec.
have [|E _] := IH (mkseq (fun i => (nth 0 acc i + nth 0 c i)%N) k) cs' se _ Hcs; first exact: size_mkseq.
rewrite E; split.
  apply: (@eq_from_nth _ 0%N); rewrite ?size_mkseq // => i li.
  by rewrite !nth_mkseq // Ec nth_mkseq // count_cat addnA.
move=> _; apply: leq_trans c0 _; rewrite Ec !sumnE !big_map; apply: leq_sum => i _.
by rewrite count_cat leq_addr.
Qed.

Lemma hist_1dE trajs bins xfa pf : hist_1d trajs bins = Ok (xfa, pf) ->
  exists lo hi, let e := linspace lo hi bins in let all := flatten trajs in
  [/\ is_min lo all, is_max hi all, lo < hi, (1 < bins)%N &
  [/\ (0 < above lo all)%N,
      pf = mkseq (fun i => (count (in_bin e i) all)%:R / (above lo all)%:R) bins.-1
    & xfa = mkseq (fun i => (e`_i.+1 + e`_i) / 2%:R) bins.-1 ]].
Proof.
rewrite /hist_1d; case F: (flatten trajs) => [|x l] // H.
unbind H u1 G1; unbind H u2 G2; unbind H cs Hcs; move/guard_ok/andP: G2 => [b1 lh].
exists (foldl Num.min x l), (foldl Num.max x l).
have [m1 m2] := foldl_min x l; have [M1 M2] := foldl_max x l.
set e := linspace _ _ bins in Hcs H *; set lo := foldl Num.min x l in e Hcs H lh m1 m2 *.
set hi := foldl Num.max x l in e Hcs H lh M1 M2 *.
have se : size e = bins.-1.+1 by rewrite size_mkseq; lia.
have [E P] := fold_counts se (size_nseq bins.-1 0%N) Hcs.
have t0 : (0 < size trajs)%N by case: trajs F {H G1 Hcs E P}.
have {}E : foldl (fun acc c => mkseq (fun i => (nth 0 acc i + nth 0 c i)%N) bins.-1) (nseq bins.-1 0%N) cs
     = mkseq (fun i => count (in_bin e i) (x :: l)) bins.-1.
  rewrite E; apply: (@eq_from_nth _ 0%N); rewrite ?size_mkseq // => i li.
  by rewrite !nth_mkseq // nth_nseq if_same add0n F.
have Hs : sumn (mkseq (fun i => count (in_bin e i) (x :: l)) bins.-1) = above lo (x :: l).
  rewrite count_telescope => [|i li]; last by apply/ltW/linspace_mono => //; lia.
  have [-> ->] := linspace_ends lo hi b1; apply: eq_in_count => y /M2 ->.
  by rewrite andbT.
case: H; rewrite E Hs => <- <-; split=> //; split=> //; last by rewrite /mkseq -map_comp.
by have := P t0; rewrite F Hs.
Qed.

Lemma hist_1d_prob trajs bins xfa pf : hist_1d trajs bins = Ok (xfa, pf) ->
  [/\ size pf = bins.-1, forall p, p \in pf -> 0 <= p & \sum_(p <- pf) p = 1].
Proof.
move=> H; have [lo [hi [mn [_ M2] lh b1 [c0 -> _]]]] := hist_1dE H; split; first exact: size_mkseq.
  by move=> p /mapP[i _ ->]; rewrite divr_ge0 ?ler0n.
rewrite big_map -mulr_suml -natr_sum.
set e := linspace lo hi bins.
have -> : (\sum_(i <- iota 0 bins.-1) count (in_bin e i) (flatten trajs) = above lo (flatten trajs))%N.
  have H1 i : (i < bins.-1)%N -> e`_i <= e`_i.+1 by move=> li; apply/ltW/linspace_mono => //; lia.
  have := @count_telescope e (flatten trajs) bins.-1 H1; rewrite sumnE big_map => ->.
  have [-> ->] := linspace_ends lo hi b1; apply: eq_in_count => y /M2 ->.
  by rewrite andbT.
by rewrite mulfV // pnatr_eq0 -lt0n.
Qed.

(** Success: at least two edges and every trajectory leaves the smallest value. *)
Lemma hist_1d_success trajs bins lo hi :
  (1 < bins)%N -> is_min lo (flatten trajs) -> is_max hi (flatten trajs) -> (0 < size trajs)%N ->
  (exists r, hist_1d trajs bins = Ok r) <-> (lo < hi /\ forall t, t \in trajs -> has (fun x => lo < x) t).
Proof.
move=> b1 Hm HM t0.
have Hc : lo < hi -> forall t, t \in trajs -> forall c, c = mkseq (fun i => count (in_bin (linspace lo hi bins) i) t)
     (size (linspace lo hi bins)).-1 -> has (fun n => 0 < n)%N c = has (fun x => lo < x) t.
  move=> lh t tt c ->; rewrite size_mkseq -sumn_gt0 count_telescope.
    have [-> ->] := linspace_ends lo hi b1; rewrite has_count; congr (0 < _)%N; apply: eq_in_count => y yt.
    by case: HM => _ -> //; rewrite ?andbT //; apply/flattenP; exists t.
  by move=> i li; apply/ltW/linspace_mono => //; lia.
rewrite /hist_1d; case F: (flatten trajs) => [|x l]; first by case: Hm; rewrite F.
have <- : lo = foldl Num.min x l by apply: (is_min_uniq Hm (foldl_min x l)); rewrite F.
have <- : hi = foldl Num.max x l by apply: (is_max_uniq HM (foldl_max x l)); rewrite F.
split.
  case=> r H; unbind H u1 G1; unbind H u2 G2; unbind H cs Hcs; move/guard_ok/andP: G2 => [_ lh]; split=> //.
  move=> t tt; rewrite -(Hc lh t tt _ erefl); elim: trajs cs Hcs tt {Hm HM t0 Hc F G1 H} => [|u us IH] cs //=.
  move=> H; unbind H c Ec; unbind H cs' Ecs; rewrite inE => /orP[/eqP ->|]; last exact: IH Ecs.
  by move: Ec; rewrite /count_bins => Ec; unbind Ec u3 G3; apply: guard_ok G3.
case=> lh H.
have -> /= : all (fun t => (0 < size t)%N) trajs.
  by apply/allP => t /H /hasP[y]; case: t.
rewrite b1 lh /=.
suff [cs ->] : exists cs, mapM (count_bins (linspace lo hi bins)) trajs = Ok cs by eexists.
have : forall t, t \in trajs -> exists c, count_bins (linspace lo hi bins) t = Ok c.
  by move=> t tt; rewrite /count_bins (Hc lh t tt _ erefl) H //; eexists.
elim: trajs {Hm HM t0 Hc F H} => [|u us IH] H /=; first by eexists.
have [c ->] := H u (mem_head _ _); have [|cs ->] := IH.
  by move=> t tt; apply: H; rewrite inE tt orbT.
by eexists.
Qed.

(** ** Witnesses *)
Definition three : seq (seq R) := [:: [:: 0; 1; 2%:R]].

Lemma three_hist : exists r, hist_1d three 3 = Ok r.
Proof.
have H := @hist_1d_success three 3 0 2%:R isT.
apply/H => //.
- split; first by rewrite !inE eqxx.
  by move=> v; rewrite !inE => /or3P[]/eqP ->; rewrite ?ler01 ?ler0n.
- split; first by rewrite !inE eqxx !orbT.
  by move=> v; rewrite !inE => /or3P[]/eqP ->; rewrite ?ler0n // ler1n.
- split; first by rewrite ltr0n.
  by move=> t; rewrite inE => /eqP -> /=; rewrite ltr01 orbT.
Qed.

Lemma min_not_counted_refuted : exists trajs bins xfa pf,
  hist_1d trajs bins = Ok (xfa, pf) /\
  ~ exists c : seq nat, sumn c = size (flatten trajs) /\ pf = [seq k%:R / (size (flatten trajs))%:R | k <- c].
Proof.
have [[xfa pf] E] := three_hist; exists three, 3%N, xfa, pf; split=> //.
case=> c [sc Ec].
have [lo [hi [Hm HM lh b1 [c0 Epf _]]]] := hist_1dE E.
have lo0 : lo = 0.
  apply: (is_min_uniq Hm (_ : is_min 0 (flatten three))) => //.
  split; first by rewrite !inE eqxx.
  by move=> v; rewrite !inE => /or3P[]/eqP ->; rewrite ?ler01 ?ler0n.
have hi2 : hi = 2%:R.
  apply: (is_max_uniq HM (_ : is_max 2%:R (flatten three))) => //.
  split; first by rewrite !inE eqxx !orbT.
  by move=> v; rewrite !inE => /or3P[]/eqP ->; rewrite ?ler0n // ler1n.
have : pf`_0 = 2^-1.
  rewrite Epf nth_mkseq // lo0 hi2 /above /= /in_bin !nth_mkseq //= !subr0 mul0r !add0r mul1r.
  rewrite mulfV ?pnatr_eq0 // !ltxx ltr01 ltr0n lexx ler01 /= (ler_nat R 2 1) /= addn0.
  by rewrite div1r.
rewrite Ec; case: c {sc Ec} => [|k1 c] /= H.
  by move/eqP: H; rewrite eq_sym invr_eq0 pnatr_eq0.
have : (k1 * 2)%:R = 3%:R :> R.
  by rewrite natrM -(divfK (_ : 3%:R != 0) k1%:R) ?pnatr_eq0 // H mulrAC mulVf ?pnatr_eq0 // mul1r.
by move/eqP; rewrite eqr_nat => /eqP; lia.
Qed.

(** A trajectory that stays at the smallest value makes the whole call fail. *)
Lemma constant_traj_refuted : exists trajs bins,
  [/\ forall t, t \in trajs -> (0 < size t)%N, (1 < bins)%N, (1 < size (undup (flatten trajs)))%N
    & hist_1d trajs bins = Err ValueError].
Proof.
exists [:: [:: 0 : R]; [:: 1; 0]], 2%N; split=> //.
- by move=> t; rewrite !inE => /orP[]/eqP ->.
- by rewrite /= !inE eqxx orbT /= oner_eq0.
rewrite /hist_1d /= /count_bins /= /in_bin /= !mul0r !addr0.
have -> : Num.min (Num.min 0 1) 0 = 0 :> R by rewrite !(min_l ler01) minxx.
by rewrite ltxx; case: (_ < _).
Qed.

End Histogram.
