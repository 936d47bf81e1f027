(** * Kernel lengths and time stamps, inversion check, truncation index, noise. *)
From mathcomp Require Import all_ssreflect all_algebra.
From mathcomp Require Import zify.
From Verif Require Import Base Tactics FKernel Model Estimator Quadrature FKernelSpec MemorySpec.
From Verif Require Import FKernelProofs FKernelProofs2 FKernelLaws FKernelLaws2 MemoryProofs VolterraMain EstimatorProofs.
Set Implicit Arguments.
Unset Strict Implicit.
Unset Printing Implicit Defensive.
Import Order.TTheory GRing.Theory Num.Theory.
Local Open Scope ring_scope.

Section Total.
Variables (R : realFieldType) (d m : nat).
Implicit Types (dt : R) (B Bd : seq 'M[R]_d) (D Dd K : seq 'M[R]_(d, m)).

Lemma finvN (A : 'M[R]_d) : A \notin unitmx -> finv A = Err Singular.
Proof. by rewrite /finv => /negPf ->. Qed.

Lemma rect_total dt B D : size D = size B -> (1 < size B)%N ->
  (exists2 K, kernel_first_kind_rect dt B D = Ok K & size K = size B) \/
  kernel_first_kind_rect dt B D = Err Singular.
Proof.
move=> sD s1; case uA: (dt *: B`_1 \in unitmx).
  by have [K E [sK _ _]] := rect_run (buf := nseq (size B) 0) (size_nseq _ _) sD s1 uA; left; exists K.
right; rewrite /kernel_first_kind_rect /kernel_first_kind_rect_buf sD eqxx /=.
by rewrite (rdE 0) //= finvN ?uA.
Qed.

Lemma mid_total dt B D : size D = size B -> (1 < size B)%N ->
  (exists2 K, kernel_first_kind_midpoint dt B D = Ok K & size K = midpoint_len (size B)) \/
  kernel_first_kind_midpoint dt B D = Err Singular.
Proof.
move=> sD s1; case uA: ((2 * dt) *: B`_1 \in unitmx).
  by have [K E [sK _ _]] := mid_run (buf := nseq (midpoint_len (size B)) 0) (size_nseq _ _) sD s1 uA; left; exists K.
right; rewrite /kernel_first_kind_midpoint /kernel_first_kind_midpoint_buf sD eqxx /=.
by rewrite (rdE 0) //= finvN ?uA.
Qed.

Lemma trapz_total dt k0 B D : size D = size B -> (0 < size B)%N ->
  (exists2 K, kernel_first_kind_trapz dt k0 B D = Ok K & size K = size B) \/
  kernel_first_kind_trapz dt k0 B D = Err Singular.
Proof.
move=> sD s1; case uA: ((2^-1 * dt) *: B`_0 \in unitmx).
  by have [K E [sK _ _]] := trapz_run k0 (buf := nseq (size B) 0) (size_nseq _ _) sD s1 uA; left; exists K.
right; rewrite /kernel_first_kind_trapz /kernel_first_kind_trapz_buf sD eqxx /=.
by rewrite (rdE 0) //= finvN ?uA.
Qed.

Lemma rect2_total dt k0 (B0 : 'M[R]_d) Bd Dd : size Dd = size Bd -> (0 < size Bd)%N ->
  (exists2 K, kernel_second_kind_rect dt k0 B0 Bd Dd = Ok K & size K = size Bd) \/
  kernel_second_kind_rect dt k0 B0 Bd Dd = Err Singular.
Proof.
move=> sD s1; case uA: (B0 \in unitmx).
  by have [K E [sK _ _]] := rect2_run dt k0 (buf := nseq (size Bd) 0) (size_nseq _ _) sD s1 uA; left; exists K.
right; rewrite /kernel_second_kind_rect /kernel_second_kind_rect_buf sD eqxx /=.
by rewrite finvN ?uA.
Qed.

Lemma trapz2_total dt k0 (B0 : 'M[R]_d) Bd Dd : size Dd = size Bd -> (0 < size Bd)%N ->
  (exists2 K, kernel_second_kind_trapz dt k0 B0 Bd Dd = Ok K & size K = size Bd) \/
  kernel_second_kind_trapz dt k0 B0 Bd Dd = Err Singular.
Proof.
move=> sD s1; case uA: (B0 - (2^-1 * dt) *: Bd`_0 \in unitmx).
  by have [K E [sK _ _]] := trapz2_run k0 (buf := nseq (size Bd) 0) (size_nseq _ _) sD s1 uA; left; exists K.
right; rewrite /kernel_second_kind_trapz /kernel_second_kind_trapz_buf sD eqxx /=.
by rewrite (rdE 0) //= finvN ?uA.
Qed.

End Total.

Section KernelLengths.
Variables (R : realFieldType) (k o : nat).
Implicit Types (dt : R) (c : corrs_data R k o).

(** Number of time steps between two kernel samples. *)
Definition kernel_stride (mt : volterra_method) : nat :=
  match mt with MMidpoint => 2 | MRichardson => 6 | _ => 1 end.

Lemma stride_time stop step N dt i :
  (0 < step)%N -> (i < slice_len 0 (N - stop) step)%N ->
  (slice_back stop step (mkseq (fun i => i%:R * dt) N))`_i = (i * step)%:R * dt.
Proof.
move=> s0 li; rewrite /slice_back size_mkseq nth_mkseq // mulnC nth_mkseq //.
move: li; rewrite /slice_len; case: ifP => // lt; rewrite ltnS subn0 => le.
have := leq_mul le (leqnn step); have := leq_trunc_div (N - stop).-1 step.
by move=> le2 le3; have := leq_trans le3 le2; move: lt; clear; lia.
Qed.

Definition corrs_sized N c : Prop :=
  [/\ size (bkbk c) = N, size (bkdx c) = N, size (dotbkdx c) = N
    & if dotbkbk c is Some dbb then size dbb = N else False].

Lemma kernel_lengths dt N c mt k0 :
  (4 <= N)%N -> corrs_sized N c -> mt <> MOther ->
  (exists times ker,
     [/\ compute_kernel dt N c mt k0 = Ok (times, ker), size times = size ker,
         (0 < size ker)%N
       & forall i, (i < size ker)%N -> times`_i = (i * kernel_stride mt)%:R * dt])
  \/ compute_kernel dt N c mt k0 = Err Singular.
Proof.
move=> N4; case: c => bb bd db dd [/= sbb sbd sdb].
case: dd => // dbb sdbb mtO; rewrite /compute_kernel.
have -> : (0 < N)%N by lia.
rewrite /=.
have [[k1 ->]|->] : (exists k1, (if needs_k0 mt then initial_k0 (Corrs bb bd db (Some dbb)) k0 else Ok 0) = Ok k1)
   \/ (if needs_k0 mt then initial_k0 (Corrs bb bd db (Some dbb)) k0 else Ok 0) = Err Singular.
- case: (needs_k0 mt); last by left; eexists.
  rewrite /initial_k0; case: k0 => [k0|]; first by left; eexists.
  rewrite /= (rdE 0) ?sbb //=; last by lia.
  rewrite (rdE 0) ?sdb //=; last by lia.
  rewrite /solve_linear /finv; case: ifP => _ /=; first by left; eexists.
  by right.
- case: mt mtO => //= _.
  + have [||[K -> sK]|->] := @rect_total R k o dt bb bd; rewrite ?sbb //; [lia|left|by right].
    exists (mkseq (fun i => i%:R * dt) N), K; rewrite /= size_mkseq sK sbb eqxx; split=> //; first by lia.
    by move=> i li; rewrite nth_mkseq // muln1.
  + have [||[K -> sK]|->] := @mid_total R k o dt bb bd; rewrite ?sbb //; [lia|left|by right].
    rewrite sbb /midpoint_len in sK.
    have sl : slice_len 0 (N - 1) 2 = size K by rewrite sK /slice_len; case: ifP; lia.
    exists (slice_back 1 2 (mkseq (fun i => i%:R * dt) N)), K.
    rewrite /= [size (slice_back _ _ _)]size_mkseq size_mkseq sl eqxx; split=> //; first by rewrite sK.
    by move=> i li; rewrite stride_time // sl.
  + have [||[K -> sK]|->] := @mid_total R k o dt bb bd; rewrite ?sbb //; [lia| |by right].
    rewrite sbb /midpoint_len in sK.
    have s3 : size (stride3 bb) = ((N + 2) %/ 3)%N by rewrite size_mkseq sbb.
    have [||[K3 -> sK3]|->] := @mid_total R k o (3%:R * dt) (stride3 bb) (stride3 bd);
      rewrite ?s3 ?size_mkseq ?sbd //; [lia|left|by right].
    rewrite s3 /midpoint_len in sK3; rewrite /= /richardson.
    have st : size (take (size K3) (stride3 K)) = size K3.
      by rewrite size_takel // size_mkseq sK sK3; lia.
    rewrite st eqxx /=.
    have sl : slice_len 0 (N - 3) 6 = size K3 by rewrite sK3 /slice_len; case: ifP; lia.
    set ker := mkseq (fun i => 8%:R^-1 *: _) _; have sker : size ker = size K3 by rewrite size_mkseq.
    exists (slice_back 3 6 (mkseq (fun i => i%:R * dt) N)), ker.
    rewrite [size (slice_back _ _ _)]size_mkseq size_mkseq sl sker eqxx; split=> //; first by rewrite sK3.
    by move=> i li; rewrite stride_time // sl.
  + have [||[K -> sK]|->] := @trapz_total R k o dt k1 bb bd; rewrite ?sbb //; [lia|left|by right].
    rewrite /=; set ker := k1 :: _.
    have sker : size ker = (N - 1)%N by rewrite /ker /= size_mkseq sK sbb; lia.
    have sl : slice_len 0 (N - 1) 1 = size ker by rewrite sker /slice_len divn1; case: ifP; lia.
    exists (slice_back 1 1 (mkseq (fun i => i%:R * dt) N)), ker.
    have E : size (slice_back 1 1 (mkseq (fun i => i%:R * dt) N)) = size ker by rewrite size_mkseq size_mkseq sl.
    rewrite E eqxx; split=> //.
    by move=> i li; rewrite stride_time // sl.
  + rewrite (rdE 0) ?sbb /=; last by lia.
    have [||[K -> sK]|->] := @rect2_total R k o dt k1 bb`_0 dbb db; rewrite ?sdbb ?sdb //; [lia|left|by right].
    exists (mkseq (fun i => i%:R * dt) N), K; rewrite /= size_mkseq sK sdbb eqxx; split=> //; first by lia.
    by move=> i li; rewrite nth_mkseq // muln1.
  + rewrite (rdE 0) ?sbb /=; last by lia.
    have [||[K -> sK]|->] := @trapz2_total R k o dt k1 bb`_0 dbb db; rewrite ?sdbb ?sdb //; [lia|left|by right].
    exists (mkseq (fun i => i%:R * dt) N), K; rewrite /= size_mkseq sK sdbb eqxx; split=> //; first by lia.
    by move=> i li; rewrite nth_mkseq // muln1.
- by right.
Qed.

(** Shorter correlations: the Richardson variant reads past the end. *)
Lemma richardson_short dt N c k0 :
  (N <= 3)%N -> corrs_sized N c ->
  exists e, compute_kernel dt N c MRichardson k0 = Err e.
Proof.
move=> N3; case: c => bb bd db [dbb|] [/= sbb sbd sdb] // sdbb; rewrite /compute_kernel /=.
case: (0 < N)%N; last by eexists.
rewrite /=; case: (kernel_first_kind_midpoint dt bb bd) => [K|e]; last by exists e.
rewrite /= /kernel_first_kind_midpoint /kernel_first_kind_midpoint_buf !size_mkseq sbb sbd eqxx /=.
rewrite rd_oob; last by rewrite size_mkseq sbb; lia.
by exists OutOfBounds.
Qed.

End KernelLengths.

Section CheckInversion.
Variables (R : realFieldType) (k o : nat).
Implicit Types (dt : R) (c : corrs_data R k o) (ker : seq 'M[R]_(k, o)).

Lemma trapezoid_rule (V : lmodType R) dt (f : nat -> V) n :
  trapezoid dt (mkseq f n.+1) = trapz_rule dt f n.
Proof.
rewrite /trapezoid size_mkseq succnK /trapz_rule scaler_sumr; apply: eq_bigr => i _.
have li := ltn_ord i.
by rewrite (nth_mkseq _ _ (_ : i.+1 < n.+1)%N) // (nth_mkseq _ _ (ltnW _)) // scalerA [2^-1 * _]mulrC addrC.
Qed.

Lemma check_inversionE dt c ker :
  (size ker <= size (bkbk c))%N -> (size ker <= size (bkdx c))%N ->
  exists2 r, check_volterra_inversion dt c ker = Ok r &
    size r = size (bkdx c) /\
    forall n, (n < size ker)%N ->
      r`_n = map_mx Num.Def.normr
        (- trapz_rule dt (fun j => (bkbk c)`_(n - j) *m ker`_j) n - (bkdx c)`_n).
Proof.
move=> sB sD; rewrite /check_volterra_inversion.
set body := (X in for_ _ _ X).
have [|||r -> [sz H]] := @for_ind _ (fun h (r : seq 'M[R]_(k, o)) => size r = size (bkdx c) /\
    forall n, (n < h)%N -> r`_n = - trapz_rule dt (fun j => (bkbk c)`_(n - j) *m ker`_j) n)
    0 (size ker) body (nseq (size (bkdx c)) 0) => //.
- by split; rewrite ?size_nseq.
- move=> n r /andP[_ ln] [sz H]; rewrite /body.
  have st : size (take n.+1 (bkbk c)) = n.+1 by rewrite size_takel //; slia.
  have sk : size (take n.+1 ker) = n.+1 by rewrite size_takel //; slia.
  rewrite size_rev st sk eqxx /=.
  have -> : [seq (p.1 : 'M[R]_k) *m (p.2 : 'M[R]_(k, o)) | p <- zip (rev (take n.+1 (bkbk c))) (take n.+1 ker)]
          = mkseq (fun j => (bkbk c)`_(n - j) *m ker`_j) n.+1.
    apply: (@eq_from_nth _ 0); first by rewrite size_map size_zip size_rev st sk minnn size_mkseq.
    move=> j; rewrite size_map size_zip size_rev st sk minnn => lj.
    rewrite (nth_map (0, 0)) ?size_zip ?size_rev ?st ?sk ?minnn // nth_mkseq //.
    rewrite nth_zip ?size_rev ?st ?sk //= nth_rev ?st // subSS !nth_take //.
    by rewrite ltnS leq_subr.
  have sr : (n < size r)%N by rewrite sz; slia.
  case: (wr_total (0 : 'M[R]_(k, o)) (-1 *: trapezoid dt (mkseq (fun j => (bkbk c)`_(n - j) *m ker`_j) n.+1)) sr)
    => r' -> [sz' H']; exists r' => //; split; first by rewrite sz'.
  move=> j lj; rewrite H'; case: eqP => [->|ne].
    by rewrite trapezoid_rule scaleN1r.
  by apply: H; lia.
rewrite /=; eexists; first by [].
split; first by rewrite size_mkseq.
by move=> n ln; rewrite nth_mkseq ?H //; slia.
Qed.

(** The correction added by the smoothing of line 331: a quarter of the second
    difference, except at time zero. *)
Definition smoothing_defect (raw : seq 'M[R]_(k, o)) (j : nat) : 'M[R]_(k, o) :=
  if j is j'.+1 then 4%:R^-1 *: (raw`_j' - 2%:R *: raw`_j'.+1 + raw`_j'.+2) else 0.

Lemma nth_smoothed (raw : seq 'M[R]_(k, o)) k0 j :
  raw`_0 = k0 -> (j < (size raw - 2).+1)%N ->
  (k0 :: smooth raw)`_j = raw`_j + smoothing_defect raw j.
Proof.
move=> E; case: j => [|j] /=; first by rewrite addr0.
rewrite ltnS => lj; rewrite nth_mkseq //.
have two0 : (2%:R : R) != 0 by rewrite pnatr_eq0.
have four : (4%:R : R) = 2%:R * 2%:R by rewrite -natrM.
rewrite !scalerDr !scalerA four invfM.
have -> : raw`_j.+1 = 2^-1 *: raw`_j.+1 + 2^-1 *: raw`_j.+1.
  by rewrite -scalerDl -mulr2n -mulr_natr mulVf // scale1r.
rewrite scalerN !scalerDr !scalerA.
rewrite mulfVK //.
set x := raw`_j; set y := raw`_j.+1; set z := raw`_j.+2.
have -> : (2^-1 : R) *: y = (2^-1 / 2) *: y + (2^-1 / 2) *: y.
  by rewrite -scalerDl -mulr2n -mulr_natr mulfVK.
move: ((2^-1 / 2) *: x) ((2^-1 / 2) *: y) ((2^-1 / 2) *: z) => {}x {}y {}z.
abel.
Qed.

Lemma smoothed_residual dt N c k0 times ker r :
  compute_kernel dt N c MTrapz k0 = Ok (times, ker) ->
  size (bkbk c) = N -> size (bkdx c) = N -> (2 <= N)%N ->
  check_volterra_inversion dt c ker = Ok r ->
  exists2 raw, (exists k1, kernel_first_kind_trapz dt k1 (bkbk c) (bkdx c) = Ok raw) &
    forall n, (0 < n < size ker)%N ->
      r`_n = map_mx Num.Def.normr
        (- trapz_rule dt (fun j => (bkbk c)`_(n - j) *m smoothing_defect raw j) n).
Proof.
move=> E sB sD N2; move: E; rewrite /compute_kernel => H.
unbind H u Hu; unbind H k1 Hk1; unbind H tk Htk; rewrite /= in Htk.
unbind Htk raw Hraw; move: Htk H => -[<-] /=; case: eqP => //= _ [_ <-] {Hu Hk1 times}.
have [[_ _ _] [sraw raw0 sol]] := (trapz_main _ _ _ _ _).1 Hraw.
have sker : size (k1 :: smooth raw) = (N - 1)%N by rewrite /= size_mkseq sraw sB; lia.
have [||r' -> [_ Hr]] := @check_inversionE dt c (k1 :: smooth raw); rewrite ?sker ?sB ?sD; try lia.
move=> -[<-]; exists raw; first by exists k1.
move=> n /andP[n0 ln]; rewrite Hr ?sker //; congr map_mx.
rewrite (trapz_rule_eq _ (g := fun j => 1 *: ((bkbk c)`_(n - j) *m raw`_j)
    + 1 *: ((bkbk c)`_(n - j) *m smoothing_defect raw j))); last first.
  by move=> j lj; rewrite !scale1r -mulmxDr nth_smoothed // sraw sB; lia.
rewrite trapz_rule_comb !scale1r sol ?sB; last by lia.
by rewrite opprD opprK addrAC subrr add0r.
Qed.

(** When the raw kernel is affine in time the check reports zero. *)
Lemma affine_residual dt N c k0 times ker r :
  compute_kernel dt N c MTrapz k0 = Ok (times, ker) ->
  size (bkbk c) = N -> size (bkdx c) = N -> (2 <= N)%N ->
  check_volterra_inversion dt c ker = Ok r ->
  (forall k1 raw, kernel_first_kind_trapz dt k1 (bkbk c) (bkdx c) = Ok raw ->
     exists a b, forall j, (j < N)%N -> raw`_j = a + j%:R *: b) ->
  forall n, (0 < n < size ker)%N -> r`_n = 0.
Proof.
move=> E sB sD N2 Er aff n rn; have [raw [k1 Hraw] ->] := smoothed_residual E sB sD N2 Er => //.
have [a [b Hab]] := aff _ _ Hraw.
have sker : (size ker <= N - 1)%N.
  move: E; rewrite /compute_kernel => H.
  unbind H u Hu; unbind H k2 Hk2; unbind H tk Htk; rewrite /= in Htk.
  unbind Htk raw2 Hraw2; move: Htk H => -[<-] /=; case: eqP => //= _ [_ <-].
  by have [_ [sr _ _]] := (trapz_main _ _ _ _ _).1 Hraw2; rewrite /= size_mkseq sr sB; lia.
rewrite (trapz_rule_eq _ (g := fun j => 0)).
  rewrite /trapz_rule big1 ?scaler0 ?oppr0; last by move=> j _; rewrite addr0 scaler0.
  by apply/matrixP => i l; rewrite !mxE normr0.
move=> [|j] lj /=; first by rewrite mulmx0.
rewrite !Hab; try lia.
rewrite (_ : _ + _ - _ + _ = 0) ?scaler0 ?mulmx0 //.
have -> : j.+2%:R *: b = j%:R *: b + b + b.
  by rewrite -addn2 natrD scalerDl -addrA -mulr2n [2%:R *: b]scaler_nat.
have -> : j.+1%:R *: b = j%:R *: b + b by rewrite -addn1 natrD scalerDl scale1r.
by rewrite [2%:R *: _]scaler_nat; move: (j%:R *: b) => x; abel.
Qed.

End CheckInversion.

(** ** Truncation index *)
Section TruncInd.
Variables (R : realFieldType) (dx o : nat).
Local Notation smp := (sample R dx o).
Implicit Types (trunc : R) (xva : seq smp) (trajs : seq (seq smp)).

(** Every trajectory is sampled at [t0, t0 + dt, t0 + 2 dt, ...]. *)
Definition on_grid (t0 dt : R) (xva : seq smp) :=
  forall i s, (i < size xva)%N -> s_t (nth s xva i) = t0 + i%:R * dt.

Lemma foldl_min_le (l : R) (ls : seq R) x : x \in l :: ls -> foldl Num.min l ls <= x.
Proof.
have lem (a : R) bs : foldl Num.min a bs <= a.
  by elim: bs a => [|b bs IH] a //=; apply: le_trans (IH _) _; rewrite le_minl lexx.
elim: ls l => [|y ls IH] l /=; first by rewrite inE => /eqP->.
rewrite !inE => /orP[/eqP->|].
  by apply: le_trans (lem _ _) _; rewrite le_minl lexx.
case/orP=> [/eqP->|xl]; first by apply: le_trans (lem _ _) _; rewrite le_minl lexx orbT.
by apply: IH; rewrite inE xl orbT.
Qed.

Lemma mapM_last trajs ls : mapM (@last_time R dx o) trajs = Ok ls ->
  forall t, List.In t trajs -> exists2 x, last_time t = Ok x & x \in ls.
Proof.
elim: trajs ls => [|u l IH] ls //= E; unbind E x Ex; unbind E ys Eys.
move: E => [<-] t [<-|tl]; first by exists x => //; rewrite inE eqxx.
by have [z Ez zy] := IH _ Eys _ tl; exists z => //; rewrite inE zy orbT.
Qed.

Lemma count_grid t0 dt xva (T : R) n : 0 < dt -> on_grid t0 dt xva ->
  T < t0 + n%:R * dt -> (count (fun s : smp => (s_t s <= T)%R) xva <= n)%N.
Proof.
move=> dt0; elim: xva n t0 => [|s xva IH] n t0 //= G Tn.
have Es := G 0%N s erefl; rewrite /= mul0r addr0 in Es.
have G' : on_grid (t0 + dt) dt xva.
  move=> i s' li; have := G i.+1 s' li => /= ->.
  by rewrite -addn1 natrD mulrDl mul1r [_ + dt in LHS]addrC addrA.
case: n Tn => [|n] Tn.
  rewrite mul0r addr0 in Tn; rewrite Es leNgt Tn add0n.
  by apply: (IH 0%N (t0 + dt) G'); rewrite mul0r addr0 (lt_trans Tn) // ltr_addl.
have {}IH : (count (fun s : smp => (s_t s <= T)%R) xva <= n)%N.
  apply: (IH n (t0 + dt) G'); move: Tn; rewrite -addn1 natrD mulrDl mul1r.
  by rewrite addrA addrAC.
by case: (s_t s <= T) => /=; lia.
Qed.

Lemma trunc_ind_bound t0 dt trunc trajs N : 0 < dt ->
  (forall t, List.In t trajs -> on_grid t0 dt t) ->
  compute_trunc_ind trunc trajs = Ok N ->
  forall t, List.In t trajs -> (N <= size t)%N.
Proof.
move=> dt0 G; rewrite /compute_trunc_ind => E; unbind E ls Els.
case: ls Els E => [|l ls]; first by [].
case: trajs G => [|x0 trajs] // G Els [<-] t tl.
have [x Ex xl] := mapM_last Els tl.
have small := foldl_min_le xl.
set T := if _ then _ else _.
have TT : T <= x by rewrite /T; case: ltP => // H; apply: le_trans H _.
have Gx0 := G x0 (or_introl erefl).
apply: (count_grid dt0 Gx0); apply: le_lt_trans TT _.
case: t Ex tl => [|s t] //= [<-] tl.
have /(_ (size t) s (ltnSn _)) := G _ tl.
rewrite -[(size t)]/((size (s :: t)).-1) nth_last /= => ->.
by rewrite ltr_add2l ltr_pmul2r // ltr_nat.
Qed.

Lemma trunc_ind_total trunc trajs :
  (0 < size trajs)%N -> (forall t, List.In t trajs -> (0 < size t)%N) ->
  exists N, compute_trunc_ind trunc trajs = Ok N.
Proof.
case: trajs => [|x0 trajs] // _ H; rewrite /compute_trunc_ind.
have [ls E] : exists ls, mapM (@last_time R dx o) (x0 :: trajs) = Ok ls.
  elim: (x0 :: trajs) H => [|u l IH] /= H; first by exists [::].
  have := H u (or_introl erefl); case: u {H} (fun t h => H t (or_intror h)) => [|s u] //= H _.
  by have [ls ->] := IH H; eexists.
rewrite E /=; case: ls E => [|l ls] E; last by eexists.
by move: E => /=; case: (last_time x0) => //= y; case: (mapM _ _).
Qed.

End TruncInd.
