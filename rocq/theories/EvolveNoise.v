(** * Evolution of correlations with a kernel known within some error. *)
From Coq Require Import Reals Lra.
From Coquelicot Require Import Coquelicot.
From mathcomp Require Import all_ssreflect all_algebra zify.
From Verif Require Import Base RealsMC Quadrature FKernel MemorySpec Gfpe GfpeProofs FKernelProofs EvolveProofs.
From Verif Require Import Tactics Convergence ConvergenceProofs ConvergenceInt ConvergenceMain ConvergenceMain2 ConvergenceMain3 StabilityProofs.
From Verif Require Import EvolveConv.
Set Implicit Arguments.
Unset Strict Implicit.
Unset Printing Implicit Defensive.
Import Order.TTheory GRing.Theory Num.Theory.
Local Open Scope ring_scope.
Bind Scope ring_scope with Rdefinitions.R.

Section Noise.
Variables (N : nat) (T M tau : R) (F : 'M[R]_N) (K X : R -> 'M[R]_N).
Hypotheses (T0 : 0 <= T) (M0 : 0 <= M) (hF : within M F) (hX : lipschitz M T X) (hK : lipschitz M T K).
Hypothesis ide : derivative M T X (ide_rhs F K tau X).

Let Z : R := M + N%:R * (M * M) + (T * LC N M + N%:R * (M * M)).
Let a : R := 2 * (T * (N%:R * (M + 1))).
Let b : R := N%:R * (M + 1).
Let B : R := 2 * (T * (N%:R * M)).
Let c : R := 2 * (a + b).

Lemma evolve_noisy mt : mt = ERect \/ mt = ETrapz ->
  exists C, exists2 dt1, 0 < dt1 & 0 <= C /\ forall dt len q eps (Ks : seq 'M[R]_N),
    0 < dt <= dt1 -> 0 <= eps <= 1 -> (0 < len)%N -> (1 < q)%N -> len.-1%:R * dt <= T -> q.-1%:R * dt = tau ->
    size Ks = q -> (forall k, (k < q)%N -> k%:R * dt <= T -> within eps (Ks`_k - K (k%:R * dt))) ->
    exists2 G, evolve_volterra dt (X 0) len mt None F Ks = Ok (mkseq (fun i => i%:R * dt) len, G) &
      size G = len /\ forall i, (i < len)%N -> within (C * (dt + eps)) (G`_i - X (i%:R * dt)).
Proof.
move=> hm.
have M10 : 0 <= M + 1 by rewrite addr_ge0 ?ler01.
have a0 : 0 <= a by rewrite !mulr_ge0 ?ler0n.
have b0 : 0 <= b by rewrite !mulr_ge0 ?ler0n.
have B0 : 0 <= B by rewrite !mulr_ge0 ?ler0n.
have c0 : 0 <= c by rewrite mulr_ge0 ?ler0n ?addr_ge0.
have Z0 : 0 <= Z.
  by rewrite /Z addr_ge0 // addr_ge0 // ?mulr_ge0 ?ler0n ?LC_ge0 //.
have [s1 p1 sm1] := small_step a0.
have [s2 p2 sm2] := small_step b0.
pose dt1 := Num.min (Num.min s1 s2) 1.
have ex0 : 0 <= exp (c * T) by apply/leRP/Rlt_le/exp_pos.
exists (2 * (Z + B) * (T * exp (c * T))), dt1; first by rewrite !lt_minr p1 p2 ltr01.
have ZB : 0 <= Z + B by rewrite addr_ge0.
split; first by apply: mulr_ge0; apply: mulr_ge0; rewrite ?ler0n.
move=> dt len q eps Ks /andP[dt0]; rewrite !le_minr => /andP[/andP[d1 d2] d3] /andP[e0 e1] l0 q1 le qt sK nK.
have sa : a * dt <= 2^-1 by apply: sm1; rewrite dt0.
have sb : b * dt <= 2^-1 by apply: sm2; rewrite dt0.
have hKs k : (k < q)%N -> k%:R * dt <= T -> within (M + 1) Ks`_k.
  move=> kq kT; have -> : Ks`_k = K (k%:R * dt) + (Ks`_k - K (k%:R * dt)) by rewrite addrC subrK.
  apply: withinD; last by apply: within_le e1 (nK _ kq kT).
  by apply: (proj1 hK); rewrite mulr_ge0 ?ler0n ?(ltW dt0).
have c1 : coer 1 (1%:M : 'M[R]_N) by move=> m Y e; rewrite mul1mx mul1r.
have hu w : 0 <= w <= 1 -> 1%:M + (w * dt ^+ 2) *: Ks`_0 \in unitmx.
  move=> /andP[w0 w1]; apply: (@coer_unit _ _ (2 * 1)); apply: (coer_near (e := dt * (M + 1)) ler01 c1).
    rewrite addrAC subrr add0r.
    apply: within_le (withinZp _ (hKs 0%N _ _)); last by rewrite mul0r.
      rewrite ler_wpmul2r // expr2 mulrA -[X in _ <= X]mul1r ler_wpmul2r ?(ltW dt0) //.
      by rewrite -[X in _ <= X]mul1r; apply: ler_pmul => //; exact: ltW.
    by rewrite mulr_ge0 ?exprn_ge0 ?(ltW dt0).
    exact: ltnW.
  by rewrite mul1r [dt * _]mulrC mulrA.
have u1 : 1%:M + dt ^+ 2 *: Ks`_0 \in unitmx by rewrite -[dt ^+ 2]mul1r; apply: hu; rewrite ler01 lexx.
have u2 : 1%:M + (2^-1 * dt ^+ 2) *: Ks`_0 \in unitmx.
  by apply: hu; rewrite invr_ge0 ler0n invf_le1 ?ltr0n // ler1n.
have s2' : (1 < size Ks)%N by rewrite sK.
have [G E [sG G0 S]] := evolve_runs (X 0) F hm l0 s2' u1 u2.
exists G => //; split=> // i li.
rewrite sK in S.
pose e j := G`_j - X (j%:R * dt).
pose Z' := (Z * dt + B * eps) / dt.
have ze : 0 <= Z * dt + B * eps by apply: addr_ge0; apply: mulr_ge0 => //; exact: ltW.
have Z'0 : 0 <= Z' by apply: divr_ge0 => //; exact: ltW.
have st j u w : (0 < j < len)%N -> 0 <= u -> u <= w ->
    (forall k, (k < j)%N -> within u (e k)) -> (forall k, (k <= j)%N -> within w (e k)) ->
    within (u + dt * (b * u + a * w) + Z' * dt ^+ 2) (e j).
  move=> hj u0 uw hu1 hw; have /andP[j0 lj] := hj.
  have n0 : (0 < minn j q.-1)%N by move: j0 q1; clear; lia.
  have rs := residual_err M0 hF hX hK ide mt dt0 le q1 qt hj; rewrite /= in rs.
  set n := minn j q.-1 in n0 rs *.
  have nL : (0 < n <= len.-1)%N by rewrite n0 /= /n; move: lj; clear; lia.
  have Sj := S j hj; rewrite -/n in Sj.
  set qx := mem_quad _ _ _ _ in rs; set qg := mem_quad _ _ _ _ in Sj.
  have kb k : (k <= n)%N -> (k < q)%N /\ k%:R * dt <= T.
    move=> lk; split; first by move: lk q1; rewrite /n; clear; lia.
    have kl : (k < len)%N by move: lk lj; rewrite /n; clear; lia.
    by have /andP[] := grid dt0 le kl.
  pose g k := X ((j - k)%:R * dt) *m Ks`_k.
  have qe1 : within (a * w) (qg - mem_quad dt mt n g).
    rewrite /qg -(@mem_quad_lin _ _ _ dt (ltW dt0) mt n (fun k => e (j - k)%N *m Ks`_k)) //; last first.
      by move=> k _; rewrite /e mulmxBl.
    apply: within_le (mem_quad_le (ltW dt0) mt (L := len.-1) (e := N%:R * (w * (M + 1))) nL _ _).
    - rewrite /a -[X in _ <= X]mulrA; apply: ler_wpmul2l; first by rewrite ler0n.
      have -> : T * (N%:R * (M + 1)) * w = T * (N%:R * (w * (M + 1))) by rewrite -!mulrA [(M + 1) * w]mulrC.
      by apply: ler_wpmul2r => //; rewrite !mulr_ge0 ?ler0n // (le_trans u0).
    - by rewrite !mulr_ge0 ?ler0n // (le_trans u0).
    - move=> k lk; have [kq kT] := kb k lk.
      by apply: withinM; [apply: hw; clear; lia | apply: hKs].
  have qe2 : within (B * eps) (mem_quad dt mt n g - qx).
    rewrite /qx -(@mem_quad_lin _ _ _ dt (ltW dt0) mt n (fun k => X ((j - k)%:R * dt) *m (Ks`_k - K (k%:R * dt)))) //; last first.
      by move=> k lk; have [kq kT] := kb k lk; rewrite /g nth_samples // mulmxBr.
    apply: within_le (mem_quad_le (ltW dt0) mt (L := len.-1) (e := N%:R * (M * eps)) nL _ _).
    - rewrite /B -[X in _ <= X]mulrA; apply: ler_wpmul2l; first by rewrite ler0n.
      have -> : T * (N%:R * M) * eps = T * (N%:R * (M * eps)) by rewrite -!mulrA.
      by apply: ler_wpmul2r => //; rewrite !mulr_ge0 ?ler0n.
    - by rewrite !mulr_ge0 ?ler0n.
    - move=> k lk; have [kq kT] := kb k lk.
      apply: withinM; last exact: nK.
      by apply: (proj1 hX); apply: grid dt0 le _; move: lj; clear; lia.
  have -> : e j = e j.-1 + dt *: (e j.-1 *m F - (qg - mem_quad dt mt n g)) -
     (X (j%:R * dt) - X (j.-1%:R * dt) - dt *: (X (j.-1%:R * dt) *m F - qx)) - dt *: (mem_quad dt mt n g - qx).
    rewrite {1}/e; have -> : G`_j = G`_j.-1 + dt *: (G`_j.-1 *m F - qg) by rewrite -Sj addrC subrK.
    rewrite /e mulmxBl !scalerBr; set g' := _ *: _; set h := _ *: _; set k := _ *: _; set l := _ *: _; set m := _ *: _.
    by abel.
  have ej : within u (e j.-1) by apply: hu1; move: j0; clear; lia.
  have -> : u + dt * (b * u + a * w) + Z' * dt ^+ 2 = u + dt * (b * u + a * w) + Z * dt ^+ 2 + dt * (B * eps).
    rewrite -[RHS]addrA; congr (_ + _); rewrite /Z' expr2 mulrA mulfVK ?gt_eqF //.
    by rewrite mulrDl -mulrA [B * eps * dt]mulrC.
  apply: withinB; last by apply: withinZp qe2; exact: ltW.
  apply: withinB => //; apply: withinD => //; apply: withinZp; first exact: ltW.
  apply: withinB => //; have -> : b * u = N%:R * (u * (M + 1)) by rewrite /b -mulrA [(M + 1) * u]mulrC.
  by apply: withinM => //; apply: within_le hF; rewrite ler_addl ler01.
have ac := accumulate (ltW dt0) a0 b0 Z'0 sa _ st li (leqnn i).
apply: within_le (ac _); last by rewrite /e G0 mul0r subrr.
have -> : 2 * Z' * dt ^+ 2 * (i%:R * (1 + c * dt) ^+ i) = 2 * (Z * dt + B * eps) * (i%:R * dt * (1 + c * dt) ^+ i).
  have -> : 2 * Z' * dt ^+ 2 = 2 * (Z * dt + B * eps) * dt.
    have zd : Z' * dt = Z * dt + B * eps by rewrite /Z' mulfVK ?gt_eqF.
    by rewrite expr2 mulrA -[2 * Z' * dt]mulrA zd.
  by rewrite -!mulrA; do 2!congr (_ * _); rewrite mulrCA.
have -> : 2 * (Z + B) * (T * exp (c * T)) * (dt + eps) = 2 * ((Z + B) * (dt + eps)) * (T * exp (c * T)).
  by rewrite -!mulrA; congr (_ * (_ * _)); rewrite mulrA mulrC.
have /andP[g0 gT] := grid dt0 le li.
apply: ler_pmul.
- by apply: mulr_ge0; rewrite ?ler0n.
- by apply: mulr_ge0 => //; rewrite exprn_ge0 // addr_ge0 ?ler01 // mulr_ge0 // ltW.
- apply: ler_wpmul2l; first by rewrite ler0n.
  rewrite mulrDr; apply: ler_add; apply: ler_wpmul2r; rewrite ?(ltW dt0) //; by rewrite ?ler_addl ?ler_addr.
apply: ler_pmul => //; first by rewrite exprn_ge0 // addr_ge0 ?ler01 // mulr_ge0 // ltW.
by apply: pow_exp_T => //; exact: ltW.
Qed.
End Noise.
