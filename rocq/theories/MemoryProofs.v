(** * Memory, window averages, time evolution. *)
From mathcomp Require Import all_ssreflect all_algebra.
From mathcomp Require Import zify.
From Verif Require Import Base Tactics FKernel Quadrature FKernelSpec MemorySpec FKernelProofs FKernelLaws FKernelLaws2.
Set Implicit Arguments.
Unset Strict Implicit.
Unset Printing Implicit Defensive.
Import GRing.Theory Num.Theory.
Local Open Scope ring_scope.

Section Memory.
Variables (R : realFieldType) (d m : nat).
Implicit Types (dt : R) (K : seq 'M[R]_(d, m)) (E : seq 'rV[R]_d) (mem : seq 'rV[R]_m).

(** The inner loops accumulate into [mem(i)]. *)
Lemma acc_loop dt K E i lo n mem :
  (i < size mem)%N -> (i < size E)%N -> (n <= size K)%N -> (lo <= n)%N ->
  exists2 mem',
    for_ lo n (fun j mem =>
      let! mi := rd mem i in
      let! e := rd E (i - j) in
      let! k := rd K j in
      wr mem i (mi - dt *: (e *m k))) mem = Ok mem' &
    [/\ size mem' = size mem,
        forall j, j != i -> mem'`_j = mem`_j
      & mem'`_i = mem`_i - dt *: \sum_(lo <= j < n) mem_integrand E K i j].
Proof.
move=> sm sE sK le; set body := (X in for_ _ _ X).
pose P n' mem' := [/\ size mem' = size mem,
        forall j, j != i -> mem'`_j = mem`_j
      & mem'`_i = mem`_i - dt *: \sum_(lo <= j < n') mem_integrand E K i j].
apply: (@for_ind _ P) => //.
  by split=> //; rewrite big_geq // scaler0 subr0.
move=> j mem1 rg [sz1 H1 H2]; rewrite /body.
rewrite (rdE 0) /=; last by slia.
rewrite (rdE 0) /=; last by slia.
rewrite (rdE 0) /=; last by slia.
have sm1 : (i < size mem1)%N by slia.
case: (wr_total (0 : 'rV[R]_m) (mem1`_i - dt *: (E`_(i - j) *m K`_j)) sm1) => mem2 E2 [sz2 H].
exists mem2 => //; split; first by rewrite sz2.
  by move=> k nk; rewrite H (negPf nk) H1.
rewrite H eqxx H2 big_nat_recr /=; last by lia.
by rewrite scalerDr opprD addrA.
Qed.

Lemma memory_rectE dt K E :
  (0 < size K)%N -> (0 < size E)%N ->
  exists2 mem, memory_rect dt K E = Ok mem & is_memory_rect dt K E mem.
Proof.
move=> sK sE; rewrite /memory_rect.
pose P n mem := [/\ size mem = size E, mem`_0 = 0,
   forall j, (n <= j)%N -> mem`_j = 0
 & forall i, (0 < i < n)%N ->
        mem`_i = - rect_rule dt (mem_integrand E K i) (minn i (size K).-1).+1].
set body := (X in for_ _ _ X).
have [||mem -> [sz h0 _ H]] := @for_ind _ P 1 (size E) body (nseq (size E) 0) sE.
- split; rewrite ?size_nseq ?nth_nseq ?if_same //; last by lia.
  by move=> j _; rewrite nth_nseq if_same.
- move=> i mem rg [sz h0 hz H]; rewrite /body.
  have [||||mem' E' [sz' H1 H2]] := @acc_loop dt K E i 0 (minn i (size K).-1).+1 mem.
  + by slia.
  + by slia.
  + by slia.
  + by [].
  exists mem'; first exact: E'.
  split; first by rewrite sz'.
  + by rewrite H1 //; lia.
  + by move=> j lj; rewrite H1 ?hz //; lia.
  move=> j rj; case: (eqVneq j i) => [->|ne].
    by rewrite H2 hz // sub0r /rect_rule big_mkord.
  by rewrite H1 // H //; lia.
by exists mem.
Qed.

(** What the trapezoidal routine stores at time [i]. *)
Definition memory_trapz_coded dt K E (i : nat) : 'rV[R]_m :=
  let f := mem_integrand E K i in
  let l := (size K).-1 in
  - ((2^-1 * dt) *: f 0%N + dt *: (\sum_(1 <= j < (minn i.-1 l).+1) f j)
     + (2^-1 * dt) *: f (minn i l)).

Lemma memory_trapzE dt K E :
  (0 < size K)%N -> (0 < size E)%N ->
  exists2 mem, memory_trapz dt K E = Ok mem &
    [/\ size mem = size E, mem`_0 = 0
      & forall i, (0 < i < size E)%N -> mem`_i = memory_trapz_coded dt K E i].
Proof.
move=> sK sE; rewrite /memory_trapz.
have s0 : (0 < size (nseq (size E) (0%R : 'rV[R]_m)))%N by rewrite size_nseq.
case: (wr_total (0 : 'rV[R]_m) 0 s0) => m0 E0 [sz0 H0]; rewrite E0 /=.
pose P n mem := [/\ size mem = size E, mem`_0 = 0
 & forall i, (0 < i < n)%N -> mem`_i = memory_trapz_coded dt K E i].
set body := (X in for_ _ _ X).
have [||mem -> [sz h0 H]] := @for_ind _ P 1 (size E) body m0 sE.
- split; rewrite ?sz0 ?size_nseq ?H0 //; lia.
- move=> i mem rg [sz h0 H]; rewrite /body.
  rewrite (rdE 0) /=; last by slia.
  rewrite (rdE 0) //=.
  have sm : (i < size mem)%N by slia.
  case: (wr_total (0 : 'rV[R]_m) ((- 2^-1 * dt) *: (E`_i *m K`_0)) sm) => m1 E1 [sz1 H1].
  rewrite E1 /=.
  have [||||m2 E2 [sz2 H2 H2']] := @acc_loop dt K E i 1 (minn i.-1 (size K).-1).+1 m1.
  + by slia.
  + by slia.
  + by slia.
  + by slia.
  rewrite E2 /=.
  rewrite (rdE 0) /=; last by slia.
  rewrite (rdE 0) /=; last by slia.
  rewrite (rdE 0) /=; last by slia.
  set v := (X in wr _ _ X).
  have sm2 : (i < size m2)%N by slia.
  case: (wr_total (0 : 'rV[R]_m) v sm2) => m3 E3 [sz3 H3].
  exists m3; first exact: E3.
  split; first by rewrite sz3 sz2 sz1.
  + rewrite H3; case: eqP => [|_]; first by lia.
    by rewrite H2 ?H1; [case: eqP => //; lia | lia].
  move=> j rj; rewrite H3; case: (eqVneq j i) => [->|ne].
    rewrite /v H2' H1 eqxx /memory_trapz_coded /mem_integrand subn0 mulNr scaleNr.
    by rewrite !opprD.
  rewrite H2 // H1 (negPf ne) H //; lia.
by exists mem.
Qed.

Lemma memory_trapz_coded_in dt K E i :
  (0 < i)%N -> (i <= (size K).-1)%N ->
  memory_trapz_coded dt K E i = - trapz_rule dt (mem_integrand E K i) i.
Proof.
move=> i0 le; rewrite /memory_trapz_coded trapz_ruleE // (minn_idPl le).
by have -> : (minn i.-1 (size K).-1).+1 = i by lia.
Qed.

Lemma memory_trapz_coded_out dt K E i :
  ((size K).-1 < i)%N ->
  memory_trapz_coded dt K E i
  = - (trapz_rule dt (mem_integrand E K i) (size K).-1
       + dt *: mem_integrand E K i (size K).-1).
Proof.
move=> lt; rewrite /memory_trapz_coded.
have -> : minn i.-1 (size K).-1 = (size K).-1 by lia.
have -> : minn i (size K).-1 = (size K).-1 by lia.
case: (posnP (size K).-1) => [->|l0].
  rewrite /trapz_rule big_ord0 scaler0 add0r big_geq // scaler0 addr0.
  by rewrite -scalerDl ![2^-1 * _]mulrC -splitr.
rewrite trapz_ruleE // big_nat_recr //= scalerDr; congr (- _).
abel.
Qed.

Lemma memory_trapz_ok dt K E mem :
  memory_trapz dt K E = Ok mem -> (0 < size E)%N.
Proof. by case: E. Qed.

End Memory.

Section MemoryBasis.
Variables (R : realFieldType) (d m : nat) (P : 'M[R]_d).
Hypothesis uP : P \in unitmx.
Implicit Types (dt : R) (K : seq 'M[R]_(d, m)) (E : seq 'rV[R]_d) (mem : seq 'rV[R]_m).

Lemma chgE_0 : chgE P 0 = 0. Proof. by rewrite /chgE mul0mx. Qed.

Lemma mem_integrand_chg K E i j :
  mem_integrand [seq chgE P e | e <- E] [seq chgK P A | A <- K] i j = mem_integrand E K i j.
Proof. by rewrite /mem_integrand nth_map0 ?chgE_0 // nth_chgK chgE_mul. Qed.

Lemma seq_eq_nth (T : Type) (x0 : T) (s t : seq T) :
  size s = size t -> (forall i, (i < size s)%N -> nth x0 s i = nth x0 t i) -> s = t.
Proof. by move=> H1 H2; apply: (@eq_from_nth _ x0). Qed.

Lemma memory_rect_basis_change dt K E :
  (0 < size K)%N -> (0 < size E)%N ->
  memory_rect dt [seq chgK P A | A <- K] [seq chgE P e | e <- E] = memory_rect dt K E.
Proof.
move=> sK sE.
have [mem -> [sz h0 H]] := memory_rectE dt sK sE.
have [||mem' -> [sz' h0' H']] := @memory_rectE _ _ _ dt [seq chgK P A | A <- K] [seq chgE P e | e <- E].
- by rewrite size_map.
- by rewrite size_map.
congr Ok; apply: (@seq_eq_nth _ 0); first by rewrite sz sz' size_map.
case=> [|i] li; first by rewrite h0 h0'.
have ri : (0 < i.+1 < size E)%N by move: li; rewrite sz' size_map.
rewrite H' ?size_map // H //.
by congr (- _); apply: rect_rule_eq => j _; rewrite mem_integrand_chg.
Qed.

Lemma memory_trapz_basis_change dt K E :
  (0 < size K)%N -> (0 < size E)%N ->
  memory_trapz dt [seq chgK P A | A <- K] [seq chgE P e | e <- E] = memory_trapz dt K E.
Proof.
move=> sK sE.
have [mem -> [sz h0 H]] := memory_trapzE dt sK sE.
have [||mem' -> [sz' h0' H']] := @memory_trapzE _ _ _ dt [seq chgK P A | A <- K] [seq chgE P e | e <- E].
- by rewrite size_map.
- by rewrite size_map.
congr Ok; apply: (@seq_eq_nth _ 0); first by rewrite sz sz' size_map.
case=> [|i] li; first by rewrite h0 h0'.
have ri : (0 < i.+1 < size E)%N by move: li; rewrite sz' size_map.
rewrite H' ?size_map // H //.
rewrite /memory_trapz_coded size_map !mem_integrand_chg.
by under eq_bigr do rewrite mem_integrand_chg.
Qed.

End MemoryBasis.

(** ** Window averages *)
Section Corrs.
Variables (R : realFieldType) (d m o : nat).
Implicit Types (dt : R) (K : seq 'M[R]_(d, m)) (E : seq 'rV[R]_d)
  (xi noise : seq 'rV[R]_m) (left : seq 'rV[R]_o).

Lemma foldl_sum (V : zmodType) (s : seq V) : foldl +%R 0 s = \sum_(x <- s) x.
Proof.
suff: forall a, foldl +%R a s = a + \sum_(x <- s) x by move=> ->; rewrite add0r.
elim: s => [|x s IH] a /=; first by rewrite big_nil addr0.
by rewrite IH big_cons addrA.
Qed.

Lemma window_meanE cnt left noise :
  (0 < cnt)%N -> (cnt <= size left)%N -> (cnt <= size noise)%N ->
  window_mean cnt left noise =
  Ok (cnt%:R^-1 *: \sum_(t < cnt) (left`_t)^T *m noise`_t).
Proof.
case: cnt => // cnt _ sl sn; rewrite /window_mean; congr Ok.
apply/matrixP => k l; rewrite !mxE foldl_sum mulrC; congr (_ * _).
rewrite big_map (big_nth (0 : 'rV[R]_o, 0 : 'rV[R]_m)) size_zip !size_takel // minnn big_mkord.
rewrite summxE; apply: eq_bigr => t _.
rewrite (nth_zip (0 : 'rV[R]_o)) ?size_takel // !nth_take ?ltn_ord //=.
by rewrite !mxE big_ord1 !mxE.
Qed.

Lemma mem_integrand_shift K E t n j :
  mem_integrand E K (t.+1 + n) j = mem_integrand E K (t + n.+1) j.
Proof. by rewrite addSnnS. Qed.

Lemma noise_rect_step dt xi K E t n :
  noise_rect dt xi K E t n.+1 = noise_rect dt xi K E t.+1 n + dt *: (E`_t.+1 *m K`_n).
Proof.
rewrite /noise_rect addSnnS -addrA /rect_rule big_ord_recr /= scalerDr.
by rewrite {2}/mem_integrand addnS subSn ?leq_addl // addnK.
Qed.

Lemma noise_trapz_step dt xi K E t n :
  noise_trapz dt xi K E t n.+1
  = noise_trapz dt xi K E t.+1 n + (2^-1 * dt) *: (E`_t.+1 *m K`_n)
    + (2^-1 * dt) *: (E`_t *m K`_n.+1).
Proof.
rewrite /noise_trapz addSnnS -!addrA /trapz_rule big_ord_recr /= scalerDr.
rewrite {3 4}/mem_integrand addnS subSn ?leq_addl // addnK subSS addnK.
by rewrite scalerA [dt * _]mulrC scalerDr.
Qed.

Lemma corrs_rectE dt xi K E left :
  size E = size xi -> size left = size xi -> (size K <= size xi)%N ->
  exists2 C, corrs_rect dt xi K E left = Ok C &
    size C = size K /\
    forall n, (n < size K)%N -> C`_n = window_average left (noise_rect dt xi K E) n.
Proof.
move=> sE sl sK; rewrite /corrs_rect sE sl !eqxx /=.
set N := size xi in sE sl sK *.
pose P n (st : seq 'M[R]_(o, m) * seq 'rV[R]_m) :=
  [/\ size st.1 = size K, size st.2 = N,
      forall i, (i < n)%N -> st.1`_i = window_average left (noise_rect dt xi K E) i
    & forall t, (t < N - n)%N -> st.2`_t = noise_rect dt xi K E t n].
set body := (X in for_ _ _ X).
have [||[C noise] -> [sz1 sz2 H1 H2]] := @for_ind _ P 0 (size K) body (nseq (size K) 0, xi) (leq0n _).
- split; rewrite ?size_nseq // => t lt.
  by rewrite /noise_rect addn0 /rect_rule big_ord0 scaler0 addr0.
- move=> n [C noise] /= rg [/= sz1 sz2 H1 H2]; rewrite /body.
  rewrite window_meanE /=; [|by slia|by slia|by slia].
  set c := (X in wr C n X).
  have sC : (n < size C)%N by slia.
  case: (wr_total (0 : 'M[R]_(o, m)) c sC) => C' E' [szC' HC']; rewrite E' /=.
  rewrite (rdE 0) /=; last by slia.
  set cnt := (N - n).-1; set upd := map _ _.
  have su : size upd = cnt.
    rewrite size_map size_zip !size_takel ?minnn // size_drop; rewrite /cnt; slia.
  exists (C', upd ++ drop cnt noise) => //; split=> /=.
  + by rewrite szC'.
  + by rewrite size_cat su size_drop sz2 /cnt; lia.
  + move=> i li; rewrite HC'; case: eqP => [->|ne]; last by apply: H1; lia.
    rewrite /c /window_average sl; congr (_ *: _); apply: eq_bigr => t _.
    by rewrite H2.
  + move=> t lt; have lt' : (t < cnt)%N by rewrite /cnt; lia.
    rewrite nth_cat su lt' (nth_map (0 : 'rV[R]_m, 0 : 'rV[R]_d)); last first.
      by rewrite size_zip !size_takel ?minnn // size_drop; rewrite /cnt; slia.
    rewrite nth_zip; last by rewrite !size_takel // size_drop; rewrite /cnt; slia.
    rewrite /= !nth_take // !nth_drop !add1n H2; last by rewrite /cnt in lt'; lia.
    by rewrite -noise_rect_step.
by exists C.
Qed.

Lemma corrs_trapzE dt xi K E left :
  size E = size xi -> size left = size xi -> ((size K).-1 <= size xi)%N ->
  exists2 C, corrs_trapz dt xi K E left = Ok C &
    size C = (size K).-1 /\
    forall n, (n < (size K).-1)%N -> C`_n = window_average left (noise_trapz dt xi K E) n.
Proof.
move=> sE sl sK; rewrite /corrs_trapz sE sl !eqxx /=.
set N := size xi in sE sl sK *.
pose P n (st : seq 'M[R]_(o, m) * seq 'rV[R]_m) :=
  [/\ size st.1 = (size K).-1, size st.2 = N,
      forall i, (i < n)%N -> st.1`_i = window_average left (noise_trapz dt xi K E) i
    & forall t, (t < N - n)%N -> st.2`_t = noise_trapz dt xi K E t n].
set body := (X in for_ _ _ X).
have [||[C noise] -> [sz1 sz2 H1 H2]] := @for_ind _ P 0 (size K).-1 body (nseq (size K).-1 0, xi) (leq0n _).
- split; rewrite ?size_nseq // => t lt.
  by rewrite /noise_trapz addn0 /trapz_rule big_ord0 scaler0 addr0.
- move=> n [C noise] /= rg [/= sz1 sz2 H1 H2]; rewrite /body.
  rewrite window_meanE /=; [|by slia|by slia|by slia].
  set c := (X in wr C n X).
  have sC : (n < size C)%N by slia.
  case: (wr_total (0 : 'M[R]_(o, m)) c sC) => C' E' [szC' HC']; rewrite E' /=.
  rewrite (rdE 0) /=; last by slia.
  rewrite (rdE 0) /=; last by slia.
  set cnt := (N - n).-1; set upd := map _ _.
  have s1 : size (take cnt (drop 1 noise)) = cnt by rewrite size_takel // size_drop /cnt; slia.
  have s2 : size (take cnt (drop 1 E)) = cnt by rewrite size_takel // size_drop /cnt; slia.
  have s3 : size (take cnt E) = cnt by rewrite size_takel // /cnt; slia.
  have su : size upd = cnt by rewrite size_map !size_zip s1 s2 s3 !minnn.
  exists (C', upd ++ drop cnt noise) => //; split=> /=.
  + by rewrite szC'.
  + by rewrite size_cat su size_drop sz2 /cnt; lia.
  + move=> i li; rewrite HC'; case: eqP => [->|ne]; last by apply: H1; lia.
    rewrite /c /window_average sl; congr (_ *: _); apply: eq_bigr => t _.
    by rewrite H2.
  + move=> t lt; have lt' : (t < cnt)%N by rewrite /cnt; lia.
    rewrite nth_cat su lt' (nth_map (0 : 'rV[R]_m, (0 : 'rV[R]_d, 0 : 'rV[R]_d))); last first.
      by rewrite !size_zip s1 s2 s3 !minnn.
    rewrite nth_zip; last by rewrite size_zip s1 s2 s3 minnn.
    rewrite nth_zip; last by rewrite s2 s3.
    rewrite /= !nth_take // !nth_drop !add1n H2; last by rewrite /cnt in lt'; lia.
    by rewrite -noise_trapz_step.
by exists C.
Qed.

End Corrs.
