(** * Time evolution of correlations and flux decomposition: proofs. *)
From mathcomp Require Import all_ssreflect all_algebra.
From mathcomp Require Import zify.
From Verif Require Import Base Tactics FKernel Flux Quadrature MemorySpec FKernelProofs.
Set Implicit Arguments.
Unset Strict Implicit.
Unset Printing Implicit Defensive.
Import Order.Theory GRing.Theory Num.Theory.
Local Open Scope ring_scope.

(** Forward substitution into a zero-filled array. *)
Lemma forward_ok0 (T : Type) (x0 : T) lo hi (body : nat -> seq T -> res (seq T)) g K :
  (lo <= hi)%N -> (hi <= size K)%N -> (forall j, (lo <= j)%N -> nth x0 K j = x0) ->
  (forall i K', (lo <= i < hi)%N -> size K' = size K ->
     (forall j, (i <= j)%N -> nth x0 K' j = x0) -> body i K' = wr K' i (g i K')) ->
  causal x0 lo hi g ->
  exists2 K', for_ lo hi body K = Ok K' &
    [/\ size K' = size K,
        forall j, ~~ (lo <= j < hi)%N -> nth x0 K' j = nth x0 K j
      & forall i, (lo <= i < hi)%N -> nth x0 K' i = g i K'].
Proof.
move=> lohi hisz K0 bodyE cg.
pose P n K' := [/\ size K' = size K,
   forall j, ~~ (lo <= j < n)%N -> nth x0 K' j = nth x0 K j
  & forall i, (lo <= i < n)%N -> nth x0 K' i = g i K'].
have [||K' E [sz H1 H2]] := @for_ind _ P lo hi body K lohi.
- by split=> // i; lia.
- move=> i K' rg [sz H1 H2].
  have lt : (i < size K')%N by lia.
  have [K'' E [sz'' H]] := wr_total x0 (g i K') lt.
  exists K''.
    by rewrite bodyE // => j ij; rewrite H1 ?K0 //; lia.
  split; first by rewrite sz''.
    by move=> j rj; rewrite H; case: eqP => [|_]; [lia | apply: H1; lia].
  move=> j rj; rewrite H; case: eqP => [->|ne].
    by apply: cg => // k lk; rewrite H; case: eqP => //; lia.
  rewrite H2; last by lia.
  by apply: cg => [|k lk]; [lia | rewrite H; case: eqP => //; lia].
by exists K'.
Qed.

Section Evolve.
Variables (R : realFieldType) (d o : nat).
Implicit Types (dt : R) (G : seq 'M[R]_(o, d)) (K : seq 'M[R]_d) (F : 'M[R]_d).

(** The part of the memory the routines compute explicitly. *)
Definition evol_sum dt K G (i n : nat) : 'M[R]_(o, d) :=
  dt *: \sum_(1 <= j < n) mem_integrand G K i j.

Lemma evol_sum_causal dt K G G' i n :
  (0 < i)%N -> (forall j, (j < i)%N -> G`_j = G'`_j) ->
  evol_sum dt K G i n = evol_sum dt K G' i n.
Proof.
move=> i0 H; rewrite /evol_sum (eq_big_nat _ _ (F2 := mem_integrand G' K i)) // => j rj.
by rewrite /mem_integrand H //; lia.
Qed.

Lemma solve_eq_right (A : 'M[R]_d) (x y : 'M[R]_(o, d)) :
  A \in unitmx -> (x = y *m invmx A) <-> (x *m A = y).
Proof. by move=> uA; split=> [->|<-]; rewrite ?mulmxKV ?mulmxK. Qed.

Definition ide_g (c : R) (ml : nat -> nat) dt K F (i : nat) G : 'M[R]_(o, d) :=
  (G`_i.-1 - dt *: evol_sum dt K G i (ml i) + dt *: (G`_i.-1 *m F))
    *m invmx (1%:M + c *: K`_0).

Lemma ide_causal c ml dt K F hi : causal 0 1 hi (ide_g c ml dt K F).
Proof.
move=> i G G' rg H; rewrite /ide_g (@evol_sum_causal _ _ G G') //; last by lia.
by rewrite H //; lia.
Qed.

(** Equation solved at step [i]: implicit in the newest sample, [a] its weight. *)
Definition ide_coded (a : R) (n : nat) dt K F G (i : nat) : Prop :=
  G`_i - G`_i.-1
  = dt *: (G`_i.-1 *m F - ((a * dt) *: (G`_i *m K`_0) + evol_sum dt K G i n)).

Lemma ide_step a ml dt K F G i :
  1%:M + (a * dt ^+ 2) *: K`_0 \in unitmx ->
  G`_i = ide_g (a * dt ^+ 2) ml dt K F i G <-> ide_coded a (ml i) dt K F G i.
Proof.
move=> uA; rewrite /ide_g solve_eq_right // /ide_coded mulmxDr mulmx1 -scalemxAr.
have -> : (a * dt ^+ 2) = dt * (a * dt) by rewrite expr2 mulrCA.
rewrite -[(dt * _) *: _]scalerA; set x := (a * dt) *: _; set e := G`_i; set p := G`_i.-1.
set s := evol_sum _ _ _ _ _; set pf := p *m F.
rewrite scalerBr scalerDr.
split=> E; first by rewrite -[e](addrK (dt *: x)) E; abel.
by rewrite -[e](subrK p) E; abel.
Qed.

Lemma slices_rev_nth G i n j :
  (n <= i)%N -> (i < size G)%N -> (j <= n)%N ->
  (drop (i - n) (take i.+1 G))`_(n - j) = G`_(i - j).
Proof. by move=> ni iG jn; rewrite nth_slice //; [congr (_`_ _) | |]; lia. Qed.

Lemma ide_trapz_run dt len K (E0 : 'M[R]_(o, d)) F :
  (0 < len)%N -> (0 < size K)%N -> 1%:M + (2^-1 * dt ^+ 2) *: K`_0 \in unitmx ->
  exists2 G, solve_ide_trapz dt len K E0 F = Ok G &
    [/\ size G = len, G`_0 = E0
      & forall i, (0 < i < len)%N ->
          G`_i = ide_g (2^-1 * dt ^+ 2) (fun i => minn i (size K).-1) dt K F i G].
Proof.
move=> l0 sK uA; rewrite /solve_ide_trapz.
have s0 : (0 < size (nseq len (0%R : 'M[R]_(o, d))))%N by rewrite size_nseq.
case: (wr_total (0 : 'M[R]_(o, d)) E0 s0) => G0 EG0 [sz0 H0]; rewrite EG0 /=.
rewrite (rdE 0) //= finvE //=.
set body := (X in for_ _ _ X).
pose g := ide_g (2^-1 * dt ^+ 2) (fun i => minn i (size K).-1) dt K F.
have [|||||G -> [sz Hout Hin]] := @forward_ok0 _ 0 1 len body g G0.
- by [].
- by rewrite sz0 size_nseq.
- by move=> j j1; rewrite H0; case: eqP => [|_]; [lia | rewrite nth_nseq if_same].
- move=> i G rg szG Hz; rewrite /body; rewrite sz0 size_nseq in szG.
  set ml := minn _ _.
  rewrite sliceE /=; [|by rewrite /ml; slia|by slia].
  rewrite sliceE /=; [|by slia|by rewrite /ml; slia].
  rewrite trapz_integralE; first last.
  + by rewrite size_slice; rewrite /ml; slia.
  + by rewrite size_slice; rewrite /ml; slia.
  + by rewrite size_slice; rewrite /ml; slia.
  rewrite /= (rdE 0) /=; last by slia.
  have -> : (drop (i - ml) (take i.+1 G))`_ml = 0.
    rewrite -[X in _`_X]subn0 slices_rev_nth //; [|by rewrite /ml; lia|by slia].
    by rewrite subn0 Hz.
  rewrite mul0mx scaler0 add0r.
  rewrite (eq_big_nat _ _ (F2 := mem_integrand G K i)) // => j rj.
  rewrite slices_rev_nth; [|by rewrite /ml; lia|by slia|by lia].
  by rewrite nth_slice ?add0n //; rewrite /ml in rj *; slia.
- exact: ide_causal.
exists G => //; split=> //; first by rewrite sz sz0 size_nseq.
by rewrite Hout // H0.
Qed.

Lemma ide_rect_run dt len K (E0 : 'M[R]_(o, d)) F :
  (0 < len)%N -> (0 < size K)%N -> 1%:M + (dt ^+ 2) *: K`_0 \in unitmx ->
  exists2 G, solve_ide_rect dt len K E0 F = Ok G &
    [/\ size G = len, G`_0 = E0
      & forall i, (0 < i < len)%N ->
          G`_i = ide_g (dt ^+ 2) (fun i => (minn i (size K).-1).-1) dt K F i G].
Proof.
move=> l0 sK uA; rewrite /solve_ide_rect.
have s0 : (0 < size (nseq len (0%R : 'M[R]_(o, d))))%N by rewrite size_nseq.
case: (wr_total (0 : 'M[R]_(o, d)) E0 s0) => G0 EG0 [sz0 H0]; rewrite EG0 /=.
rewrite (rdE 0) //= finvE //=.
set body := (X in for_ _ _ X).
pose g := ide_g (dt ^+ 2) (fun i => (minn i (size K).-1).-1) dt K F.
have [|||||G -> [sz Hout Hin]] := @forward_ok0 _ 0 1 len body g G0.
- by [].
- by rewrite sz0 size_nseq.
- by move=> j j1; rewrite H0; case: eqP => [|_]; [lia | rewrite nth_nseq if_same].
- move=> i G rg szG Hz; rewrite /body; rewrite sz0 size_nseq in szG.
  set ml := _.-1.
  rewrite sliceE /=; [|by rewrite /ml; slia|by slia].
  rewrite sliceE /=; [|by slia|by rewrite /ml; slia].
  rewrite rect_integralE; first last.
  + by rewrite size_slice; rewrite /ml; slia.
  + by rewrite size_slice; rewrite /ml; slia.
  rewrite /= (rdE 0) /=; last by slia.
  rewrite /g /ide_g /evol_sum -/ml.
  have E1 : \sum_(j < ml) (drop (i - ml) (take i.+1 G))`_(ml - j) *m (drop 0 (take ml.+1 K))`_j
     = \sum_(1 <= j < ml) mem_integrand G K i j.
    rewrite -(big_mkord xpredT (fun j => (drop (i - ml) (take i.+1 G))`_(ml - j) *m (drop 0 (take ml.+1 K))`_j)).
    case: (posnP ml) => [->|ml0]; first by rewrite !big_geq.
    rewrite (big_ltn ml0) slices_rev_nth //; [|by rewrite /ml; lia|by slia].
    rewrite subn0 Hz // mul0mx add0r.
    apply: eq_big_nat => j rj.
    rewrite slices_rev_nth; [|by rewrite /ml; lia|by slia|by lia].
    by rewrite nth_slice ?add0n //; rewrite /ml in rj *; slia.
  by rewrite E1.
- exact: ide_causal.
exists G => //; split=> //; first by rewrite sz sz0 size_nseq.
by rewrite Hout // H0.
Qed.

Lemma ide_trapz_ok dt len K (E0 : 'M[R]_(o, d)) F G :
  solve_ide_trapz dt len K E0 F = Ok G ->
  [/\ (0 < len)%N, (0 < size K)%N & 1%:M + (2^-1 * dt ^+ 2) *: K`_0 \in unitmx].
Proof.
rewrite /solve_ide_trapz => H; unbind H G0 HG; case: (wr_ok 0 HG) => s0 _ _.
rewrite size_nseq in s0.
unbind H k0 Hk; case: (rd_ok 0 Hk) => sK Ek.
by unbind H iK Hi; case: (finv_ok Hi) => uA _; rewrite Ek in uA.
Qed.

Lemma ide_rect_ok dt len K (E0 : 'M[R]_(o, d)) F G :
  solve_ide_rect dt len K E0 F = Ok G ->
  [/\ (0 < len)%N, (0 < size K)%N & 1%:M + (dt ^+ 2) *: K`_0 \in unitmx].
Proof.
rewrite /solve_ide_rect => H; unbind H G0 HG; case: (wr_ok 0 HG) => s0 _ _.
rewrite size_nseq in s0.
unbind H k0 Hk; case: (rd_ok 0 Hk) => sK Ek.
by unbind H iK Hi; case: (finv_ok Hi) => uA _; rewrite Ek in uA.
Qed.

Lemma ide_trapz_charact dt len K (E0 : 'M[R]_(o, d)) F G :
  solve_ide_trapz dt len K E0 F = Ok G <->
  ([/\ (0 < len)%N, (0 < size K)%N & 1%:M + (2^-1 * dt ^+ 2) *: K`_0 \in unitmx] /\
   [/\ size G = len, G`_0 = E0
     & forall i, (0 < i < len)%N -> ide_coded 2^-1 (minn i (size K).-1) dt K F G i]).
Proof.
split=> [E|[[l0 sK uA] [sz h0 H]]].
  have [l0 sK uA] := ide_trapz_ok E; split=> //.
  have [G' E' [sz' h0' H']] := ide_trapz_run E0 F l0 sK uA.
  move: E'; rewrite E => -[->]; split=> // i ri.
  by apply/(@ide_step 2^-1 (fun i => minn i (size K).-1)) => //; apply: H'.
have [G' -> [sz' h0' H']] := ide_trapz_run E0 F l0 sK uA.
congr Ok; apply: (@forward_uniq _ 0 1 len (ide_g (2^-1 * dt ^+ 2) (fun i => minn i (size K).-1) dt K F)) => //.
- exact: ide_causal.
- by rewrite sz' sz.
- move=> [|j] rg; first by rewrite h0 h0'.
  by rewrite !nth_default ?sz' ?sz //; slia.
- by move=> i ri; apply/ide_step => //; apply: H.
Qed.

Lemma ide_rect_charact dt len K (E0 : 'M[R]_(o, d)) F G :
  solve_ide_rect dt len K E0 F = Ok G <->
  ([/\ (0 < len)%N, (0 < size K)%N & 1%:M + (dt ^+ 2) *: K`_0 \in unitmx] /\
   [/\ size G = len, G`_0 = E0
     & forall i, (0 < i < len)%N -> ide_coded 1 (minn i (size K).-1).-1 dt K F G i]).
Proof.
split=> [E|[[l0 sK uA] [sz h0 H]]].
  have [l0 sK uA] := ide_rect_ok E; split=> //.
  have [G' E' [sz' h0' H']] := ide_rect_run E0 F l0 sK uA.
  move: E'; rewrite E => -[->]; split=> // i ri.
  rewrite -[dt ^+ 2]mul1r in uA H'.
  by apply/(@ide_step 1 (fun i => (minn i (size K).-1).-1)) => //; apply: H'.
have [G' -> [sz' h0' H']] := ide_rect_run E0 F l0 sK uA.
rewrite -[dt ^+ 2]mul1r in uA H'.
congr Ok; apply: (@forward_uniq _ 0 1 len (ide_g (1 * dt ^+ 2) (fun i => (minn i (size K).-1).-1) dt K F)) => //.
- exact: ide_causal.
- by rewrite sz' sz.
- move=> [|j] rg; first by rewrite h0 h0'.
  by rewrite !nth_default ?sz' ?sz //; slia.
- by move=> i ri; apply/ide_step => //; apply: H.
Qed.

(** What the coded equation is, in terms of the trapezoid rule. *)
Lemma ide_coded_trapz dt K F G i n : (0 < n)%N ->
  ide_coded 2^-1 n dt K F G i <->
  G`_i - G`_i.-1
  = dt *: (G`_i.-1 *m F - (trapz_rule dt (mem_integrand G K i) n
                           - (2^-1 * dt) *: mem_integrand G K i n)).
Proof.
move=> n0; rewrite trapz_ruleE // /ide_coded addrK.
by rewrite /mem_integrand subn0.
Qed.

Lemma ide_coded_rect dt K F G i n :
  ide_coded 1 n dt K F G i <->
  G`_i - G`_i.-1
  = dt *: (G`_i.-1 *m F - rect_rule dt (mem_integrand G K i) (maxn n 1)).
Proof.
rewrite /ide_coded /evol_sum mul1r /rect_rule -scalerDr.
have -> : \sum_(j < maxn n 1) mem_integrand G K i j
   = mem_integrand G K i 0 + \sum_(1 <= j < n) mem_integrand G K i j.
  rewrite -(big_mkord xpredT (mem_integrand G K i)) big_ltn; last by lia.
  case: (posnP n) => [->|n0]; first by rewrite !big_geq.
  by have -> : maxn n 1 = n by lia.
by rewrite {2}/mem_integrand subn0.
Qed.

(** Stabilised variant. *)
Lemma simplex_stepP (A B : 'M[R]_(o, d)) : simplex_step A = Ok B -> on_simplex B.
Proof.
rewrite /simplex_step; set A' := \matrix_(i, j) _; set s := \sum_(i < o) _.
case: ifPn => // s0 [<-].
have pos i j : 0 <= A' i j by rewrite mxE le_maxr lexx orbT.
have sp : 0 <= s by apply: sumr_ge0 => i _; apply: sumr_ge0 => j _.
split=> [i j|]; first by rewrite mxE divr_ge0.
transitivity (s / s); last by rewrite divff.
rewrite {1}/s mulr_suml; apply: eq_bigr => i _; rewrite mulr_suml.
by apply: eq_bigr => j _; rewrite [map_mx _ _ i j]mxE.
Qed.

Lemma stab_oob dt len K (E0 : 'M[R]_(o, d)) F :
  (1 < len)%N -> (1 < size K)%N -> 1%:M + (2^-1 * dt ^+ 2) *: K`_0 \in unitmx ->
  solve_ide_trapz_stab dt len K E0 F = Err OutOfBounds.
Proof.
move=> l1 sK uA; rewrite /solve_ide_trapz_stab.
have s0 : (0 < size (nseq len (0%R : 'M[R]_(o, d))))%N by rewrite size_nseq; lia.
case: (wr_total (0 : 'M[R]_(o, d)) E0 s0) => G0 -> _ /=.
rewrite (rdE 0) /=; last by lia.
rewrite finvE //= /for_.
have -> : (len - 1 = (len - 2).+1)%N by lia.
rewrite /= (_ : minn 1 (size K).-1 = 1%N); last by slia.
by [].
Qed.

Lemma stab_simplex dt len K (E0 : 'M[R]_(o, d)) F G :
  solve_ide_trapz_stab dt len K E0 F = Ok G ->
  forall i, (0 < i < len)%N -> on_simplex G`_i.
Proof.
rewrite /solve_ide_trapz_stab => H.
unbind H G0 HG; case: (wr_ok 0 HG) => s0 sz0 H0; rewrite size_nseq in s0 sz0.
unbind H k0 Hk; unbind H iK Hi.
set body := (X in for_ _ _ X) in H.
pose P n (G : seq 'M[R]_(o, d)) := size G = len /\ forall i, (0 < i < n)%N -> on_simplex G`_i.
apply: (@for_inv _ P 1 len body G0 G _ _ _ H).2 => //; first by split=> // i; lia.
move=> n G1 G2 rg [sz1 H1]; rewrite /body => {}H.
unbind H Es HEs; unbind H Ks HKs; unbind H mm Hm; unbind H ep Hep; unbind H e He.
case: (wr_ok 0 H) => s1 sz2 H2; split; first by rewrite sz2.
move=> i ri; rewrite H2; case: eqP => [_|ne]; first exact: simplex_stepP He.
by apply: H1; lia.
Qed.

Lemma stab_needs dt len K (E0 : 'M[R]_(o, d)) F G :
  solve_ide_trapz_stab dt len K E0 F = Ok G -> (1 < len)%N ->
  size K = 1%N /\ (len <= o.+1)%N.
Proof.
move=> H l1.
have sK : size K = 1%N.
  move: (H); rewrite {1}/solve_ide_trapz_stab => H'.
  unbind H' G0 HG; unbind H' k0 Hk; case: (rd_ok 0 Hk) => sK Ek.
  unbind H' iK Hi; case: (finv_ok Hi) => uA _.
  case: (leqP (size K) 1) => [|lt]; first by slia.
  by move: H; rewrite stab_oob // -Ek.
split=> //; move: H; rewrite /solve_ide_trapz_stab sK /=.
case: leqP => // lo H; exfalso.
unbind H G0 HG; unbind H k0 Hk; unbind H iK Hi.
set body := (X in for_ _ _ X) in H.
pose P n (G : seq 'M[R]_(o, d)) := (n <= o.+1)%N.
suff : P len G by rewrite /P; lia.
apply: (@for_inv _ P 1 len body G0 G _ _ _ H) => //; first by lia.
move=> n G1 G2 rg; rewrite /P /body minn0 subn0 => le {}H.
unbind H Es HEs; move: HEs; rewrite /section_axis1.
by case: ifP => // /andP[_]; lia.
Qed.

End Evolve.

(** ** Flux *)
Section FluxProofs.
Variables (R : realFieldType) (d m : nat).
Implicit Types (dt : R) (G : seq 'M[R]_d) (K : seq 'M[R]_(d, m)).

Lemma flux_nth G n l j : (l <= n)%N -> (n <= size G)%N -> (j < l)%N ->
  (drop (n - l) (take n G))`_(l.-1 - j) = G`_(n.-1 - j).
Proof. by move=> ln nG jl; rewrite nth_drop nth_take; [congr (_`_ _); lia | lia]. Qed.

Lemma flux_size G n l : (l <= n)%N -> (n <= size G)%N ->
  size (drop (n - l) (take n G)) = l.
Proof. by move=> ln nG; rewrite size_drop size_takel //; lia. Qed.

Lemma flux_rectE dt G K : (0 < size K)%N -> (0 < size G)%N ->
  exists2 r, flux_memory QRect dt G K = Ok r &
    [/\ size r = size G, r`_0 = 0
      & forall n, (0 < n < size G)%N ->
          r`_n = - rect_rule dt (mem_integrand G K n.-1) (minn n (size K)).-1].
Proof.
move=> sK sG; rewrite /flux_memory.
pose P n r := [/\ size r = size G, r`_0 = 0 & forall i, (0 < i < n)%N ->
          r`_i = - rect_rule dt (mem_integrand G K i.-1) (minn i (size K)).-1].
set body := (X in for_ _ _ X).
have [||r -> [sz h0 H]] := @for_ind _ P 1 (size G) body (nseq (size G) 0) sG.
- by split; rewrite ?size_nseq ?nth_nseq ?if_same //; lia.
- move=> n r rg [sz h0 H]; rewrite /body sK /=; set l := minn n (size K).
  have l0 : (0 < l)%N by rewrite /l; lia.
  rewrite rect_integralE; first last.
  + by rewrite size_takel; rewrite /l; slia.
  + by rewrite flux_size; rewrite /l; slia.
  rewrite /=; set v := (X in wr _ _ X).
  have sr : (n < size r)%N by slia.
  case: (wr_total (0 : 'M[R]_(d, m)) v sr) => r' -> [sz' H'].
  exists r' => //; split; first by rewrite sz'.
    by rewrite H'; case: eqP => //; lia.
  move=> i ri; rewrite H'; case: eqP => [->|ne]; last by apply: H; lia.
  rewrite /v scaleN1r; congr (- _); rewrite /rect_rule; congr (_ *: _).
  apply: eq_bigr => j _; have lj := ltn_ord j.
  rewrite flux_nth; [|by rewrite /l; lia|by slia|by lia].
  by rewrite nth_take //; rewrite /l in lj *; lia.
by exists r.
Qed.

Lemma flux_trapzE dt G K : (0 < size K)%N -> (0 < size G)%N ->
  exists2 r, flux_memory QTrapz dt G K = Ok r &
    [/\ size r = size G, r`_0 = 0
      & forall n, (0 < n < size G)%N ->
          let l := (minn n (size K)).-1 in
          let f := mem_integrand G K n.-1 in
          r`_n = - ((2^-1 * dt) *: f 0%N + dt *: \sum_(1 <= j < l) f j)].
Proof.
move=> sK sG; rewrite /flux_memory.
pose P n r := [/\ size r = size G, r`_0 = 0 & forall n', (0 < n' < n)%N ->
          let l := (minn n' (size K)).-1 in
          let f := mem_integrand G K n'.-1 in
          r`_n' = - ((2^-1 * dt) *: f 0%N + dt *: \sum_(1 <= j < l) f j)].
set body := (X in for_ _ _ X).
have [||r -> [sz h0 H]] := @for_ind _ P 1 (size G) body (nseq (size G) 0) sG.
- by split; rewrite ?size_nseq ?nth_nseq ?if_same //; lia.
- move=> n r rg [sz h0 H]; rewrite /body sK /=; set l := minn n (size K).
  have l0 : (0 < l)%N by rewrite /l; lia.
  rewrite trapz_integralE; first last.
  + by rewrite size_takel; rewrite /l; slia.
  + by rewrite size_takel; rewrite /l; slia.
  + by rewrite flux_size; rewrite /l; slia.
  rewrite /=; set v := (X in wr _ _ X).
  have sr : (n < size r)%N by slia.
  case: (wr_total (0 : 'M[R]_(d, m)) v sr) => r' -> [sz' H'].
  exists r' => //; split; first by rewrite sz'.
    by rewrite H'; case: eqP => //; lia.
  move=> i ri; rewrite H'; case: eqP => [->|ne]; last by apply: H; lia.
  rewrite /v scaleN1r /= -/l; congr (- (_ + _)).
    rewrite -[X in _`_X]subn0 flux_nth //; [|by rewrite /l; lia|by slia].
    by rewrite nth_take // /mem_integrand.
  rewrite (eq_big_nat _ _ (F2 := mem_integrand G K n.-1)) // => j rj.
  rewrite flux_nth; [|by rewrite /l; lia|by slia|by lia].
  by rewrite nth_take //; rewrite /l in rj *; lia.
by exists r.
Qed.

Lemma flux_simpson_oob dt G K : (0 < size K)%N -> (1 < size G)%N ->
  flux_memory QSimpson dt G K = Err OutOfBounds.
Proof.
case: G K => [|g0 [|g1 G]] // [|k0 K] // _ _.
rewrite /flux_memory /for_ /= minnSS min0n /=.
by rewrite /simpson_integral /=.
Qed.

End FluxProofs.

(** ** Force term of the flux *)
Lemma flux_forceE (R : realFieldType) (d p : nat) (F : 'M[R]_d) (C : seq 'M[R]_(p, d)) :
  size (flux_force F C) = size C /\
  (forall n, (n < size C)%N -> (flux_force F C)`_n = C`_n *m F^T) /\
  (F^T = F -> forall n, (n < size C)%N -> (flux_force F C)`_n = C`_n *m F).
Proof.
have H n : (n < size C)%N -> (flux_force F C)`_n = C`_n *m F^T.
  move=> ln; rewrite (nth_map 0) //; apply/matrixP => q i; rewrite !mxE.
  by apply: eq_bigr => j _; rewrite !mxE mulrC.
by split; [rewrite size_map|split=> // FE n /H; rewrite FE].
Qed.

Lemma flux_force_refuted (R : realFieldType) :
  exists (F : 'M[R]_2) (C : seq 'M[R]_2), (flux_force F C)`_0 <> C`_0 *m F.
Proof.
exists (delta_mx 0 1), [:: 1%:M].
have [_ [-> // _]] := flux_forceE (delta_mx 0 1 : 'M[R]_2) [:: 1%:M].
rewrite /= !mul1mx trmx_delta => /matrixP /(_ 0 1) /eqP.
by rewrite !mxE /= eq_sym oner_eq0.
Qed.
