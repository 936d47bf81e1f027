(** * Convergence from perturbed correlations. *)
From Coq Require Import Reals Lra.
From Coquelicot Require Import Coquelicot.
From mathcomp Require Import all_ssreflect all_algebra zify.
From Verif Require Import Base RealsMC Quadrature FKernel Model Estimator FKernelSpec KernelSpec KernelValues FKernelProofs FKernelProofs2.
From Verif Require Import Tactics VolterraMain Convergence ConvergenceProofs ConvergenceInt ConvergenceMain ConvergenceMain2 ConvergenceMain3 StabilityProofs PropStability.
Set Implicit Arguments.
Unset Strict Implicit.
Unset Printing Implicit Defensive.
Import Order.TTheory GRing.Theory Num.Theory.
Local Open Scope ring_scope.
Bind Scope ring_scope with Rdefinitions.R.
Local Notation R := Rdefinitions.R.

Definition noise_factor (d : nat) (T kap : R) : R := 2 * T * (d%:R * kap) + 1 + d%:R * kap.

Lemma noise_factor_ge0 d T kap : 0 <= T -> 0 <= kap -> 0 <= noise_factor d T kap.
Proof. by move=> T0 k0; rewrite /noise_factor !addr_ge0 ?ler01 // !mulr_ge0 ?ler0n. Qed.

Lemma noise_le (d N : nat) (T dt e kap q c : R) i :
  (1 < N)%N -> 0 < dt -> N.-1%:R * dt <= T -> 0 <= e -> 0 <= kap -> 0 <= q -> 0 <= c -> (i < N)%N ->
  c * (N%:R * dt * (d%:R * (e * kap)) + e + d%:R * (e * kap)) * (1 + q * dt) ^+ i
    <= c * noise_factor d T kap * exp (q * T) * e.
Proof.
move=> N1 dt0 le e0 k0 q0 c0 li.
have NT : N%:R * dt <= 2 * T.
  apply: le_trans (_ : 2 * (N.-1%:R * dt) <= _); last by rewrite ler_wpmul2l ?ler0n.
  rewrite mulrA ler_wpmul2r ?(ltW dt0) // -natrM ler_nat; lia.
have T0 : 0 <= T by apply: le_trans le; rewrite mulr_ge0 ?ler0n ?(ltW dt0).
have -> : c * noise_factor d T kap * exp (q * T) * e = c * (noise_factor d T kap * e) * exp (q * T).
  by rewrite -!mulrA [_ * e]mulrC.
apply: ler_pmul.
- by rewrite mulr_ge0 // !addr_ge0 // !mulr_ge0 ?ler0n // ltW.
- by rewrite exprn_ge0 // addr_ge0 ?ler01 // mulr_ge0 // ltW.
- rewrite ler_wpmul2l // /noise_factor; move: (2 * T) NT => t NT; rewrite 2!mulrDl mul1r.
  have -> : t * (d%:R * kap) * e = t * (d%:R * (e * kap)) by rewrite -!mulrA [kap * e]mulrC.
  have -> : d%:R * kap * e = d%:R * (e * kap) by rewrite -!mulrA [kap * e]mulrC.
  by rewrite !ler_add2r ler_wpmul2r // !mulr_ge0 ?ler0n.
- by apply: pow_exp_T => //; [exact: ltW | have /andP[] := grid dt0 le li].
Qed.

Lemma add_errors a b (C G x e : R) (k X Y : 'M[R]_(a, b)) : 0 <= C -> 0 <= G -> 0 <= x -> 0 <= e ->
  within (C * x) (X - Y) -> within (G * e) (k - X) -> within ((C + G) * (x + e)) (k - Y).
Proof.
move=> C0 G0 x0 e0 h1 h2; have := withinD h2 h1; rewrite subrKA; apply: within_le.
rewrite [G * e + _]addrC mulrDl !mulrDr ler_add //.
  by rewrite ler_addl mulr_ge0.
by rewrite ler_addr mulr_ge0.
Qed.

Section Noise.
Variables (d m : nat) (T M : R).
Hypotheses (T0 : 0 <= T) (M0 : 0 <= M).

Lemma step_T dt N : 0 < dt -> (1 < N)%N -> N.-1%:R * dt <= T -> dt <= T.
Proof using Type. by move=> dt0 N1 le; have := grid dt0 le N1; rewrite mul1r => /andP[]. Qed.

Lemma small_noise (q : R) : 0 <= q -> exists2 e1, 0 < e1 <= 1 & forall e, 0 <= e <= e1 -> q * e <= 2^-1.
Proof using Type.
move=> q0; have [e p small] := small_step q0.
exists (Num.min e 1); first by rewrite lt_minr p ltr01 le_minl lexx orbT.
move=> f /andP[]; rewrite le_eqVlt => /predU1P[<- _|f0]; first by rewrite mulr0 invr_ge0 ler0n.
by rewrite le_minr => /andP[fe _]; apply: small; rewrite f0.
Qed.

Lemma noisy_rect (B Bd : R -> 'M[R]_d) (Dd K : R -> 'M[R]_(d, m)) :
  B 0 \in unitmx -> lipschitz M T Bd -> lipschitz M T K -> volterra2 T (B 0) Bd Dd K ->
  exists C, exists2 e1, 0 < e1 & 0 <= C /\ forall dt N e bb bd db dd,
    0 < dt -> (1 < N)%N -> N.-1%:R * dt <= T -> 0 <= e <= e1 ->
    size bb = N -> size db = N -> size dd = N ->
    near 1 e bb (samples dt N B) -> near N e dd (samples dt N Bd) -> near N e db (samples dt N Dd) ->
    exists2 ker, compute_kernel dt N (Corrs bb bd db (Some dd)) MSecondRect None = Ok (mkseq (fun i => i%:R * dt) N, ker) &
      size ker = N /\ forall i, (i < N)%N -> within (C * (dt + e)) (ker`_i - K (i%:R * dt)).
Proof.
move=> u hB hK eq.
have [C1 C10 conv] := @second_rect_converges d m T M T0 M0 B Bd (fun=> 0) Dd K u hB hK eq.
have [c c0 hc] := unit_coer u; have c0' := ltW c0.
have [e1 /andP[p1 e11] small] := @small_noise (c * d%:R) ltac:(by rewrite mulr_ge0 ?ler0n).
pose kap := M + C1 * T; have k0 : 0 <= kap by rewrite addr_ge0 ?mulr_ge0.
pose q := 2 * c * (d%:R * (M + 1)); have q0 : 0 <= q by rewrite !mulr_ge0 ?ler0n ?addr_ge0 ?ler01.
pose G := 2 * c * noise_factor d T kap * exp (q * T).
have G0 : 0 <= G.
  by rewrite !mulr_ge0 ?ler0n ?noise_factor_ge0 //; apply/leRP/Rlt_le/exp_pos.
exists (C1 + G), e1 => //; split; first exact: addr_ge0.
move=> dt N e bb bd db dd dt0 N1 le /andP[e0 ee] sb sdb sdd nb nd ndb.
have N0 := ltnW N1.
have hc' : coer (2 * c) bb`_0.
  apply: (coer_near (e := e) c0' hc); last by rewrite mulrA; apply: small; rewrite e0.
  by have := nb 0%N isT; rewrite nth_samples ?mul0r.
have [ker E [sk i0 S]] := ck_second_rect dt bd sb sdb sdd N0 (coer_unit hc').
exists ker => //; split=> // i li.
have [X EX [sX hX]] := conv dt N dt0 N0 le.
have u' : (samples dt N B)`_0 \in unitmx by rewrite nth_samples ?mul0r.
have /kernel_values[dd1 [<-] [iX _ SX]] := EX; rewrite /= in iX SX.
have kX j : (j < N)%N -> within kap X`_j.
  move=> lj; rewrite -[X`_j](subrK (K (j%:R * dt))) addrC /kap; apply: withinD.
    by apply: (proj1 hK); apply: grid dt0 le lj.
  by apply: within_le (hX j lj); rewrite ler_wpmul2l // (step_T dt0 N1 le).
have M1 j : (j < N)%N -> within (M + 1) dd`_j.
  move=> lj; rewrite -[dd`_j](subrK (samples dt N Bd)`_j) [M + 1]addrC; apply: withinD.
    by apply: within_le (nd j lj); apply: le_trans ee e11.
  by rewrite nth_samples //; apply: (proj1 hB); apply: grid dt0 le lj.
have h := @rect_stable _ d m N dt (2 * c) (M + 1) e e e kap bb`_0 (samples dt N B)`_0 (fun j => dd`_j) (fun j => (samples dt N Bd)`_j)
  (fun j => db`_j) (fun j => (samples dt N Dd)`_j) (fun j => ker`_j) (fun j => X`_j) (ltW dt0) ltac:(by rewrite mulr_ge0 ?ler0n)
  ltac:(by rewrite addr_ge0 ?ler01) e0 e0 e0 k0 M1 (nb 0%N isT) nd ndb kX hc'.
have {h} h : within (G * e) (ker`_i - X`_i).
  apply: within_le (h _ _ i li).
  - by apply: noise_le => //; rewrite mulr_ge0 ?ler0n.
  - case=> [|j] lj; last by apply: S; rewrite sdd.
    by rewrite /rect_rule big_ord0 scaler0 add0r.
  - case=> [|j] lj; last by apply: SX; rewrite size_samples.
    by rewrite /rect_rule big_ord0 scaler0 add0r.
exact: (add_errors C10 G0 (ltW dt0) e0 (hX i li) h).
Qed.

Lemma noisy_trapz (B Bd Bdd : R -> 'M[R]_d) (Dd K Kd : R -> 'M[R]_(d, m)) :
  B 0 \in unitmx -> lipschitz M T Bd -> lipschitz M T K -> derivative M T Bd Bdd -> derivative M T K Kd ->
  volterra2 T (B 0) Bd Dd K ->
  exists C dt1, exists2 e1, 0 < dt1 /\ 0 < e1 & 0 <= C /\ forall dt N e bb bd db dd,
    0 < dt <= dt1 -> (1 < N)%N -> N.-1%:R * dt <= T -> 0 <= e <= e1 ->
    size bb = N -> size db = N -> size dd = N ->
    near 1 e bb (samples dt N B) -> near N e dd (samples dt N Bd) -> near N e db (samples dt N Dd) ->
    exists2 ker, compute_kernel dt N (Corrs bb bd db (Some dd)) MSecondTrapz None = Ok (mkseq (fun i => i%:R * dt) N, ker) &
      size ker = N /\ forall i, (i < N)%N -> within (C * (dt ^+ 2 + e)) (ker`_i - K (i%:R * dt)).
Proof.
move=> u hB hK dB dK eq.
have [C1 [dt2 dt20 [C10 conv]]] := @second_trapz_converges d m T M T0 M0 B Bd Bdd (fun=> 0) Dd K Kd u hB hK dB dK eq.
have [c c0 hc] := unit_coer u; have c0' := ltW c0.
have [e1 /andP[p1 e11] small] := @small_noise (2 * (c * d%:R)) ltac:(by rewrite !mulr_ge0 ?ler0n).
have [dt3 dt30 sdt] := @small_step (2 * (c * (d%:R * (2^-1 * (M + 1))))) ltac:(by rewrite !mulr_ge0 ?invr_ge0 ?addr_ge0 ?ler0n ?ler01).
pose kap := M + C1 * T ^+ 2; have k0 : 0 <= kap by rewrite addr_ge0 ?mulr_ge0 ?exprn_ge0.
pose q := 2 * c * (d%:R * (M + 1)); have q0 : 0 <= q by rewrite !mulr_ge0 ?ler0n ?addr_ge0 ?ler01.
pose G := 2 * c * noise_factor d T kap * exp (q * T).
have G0 : 0 <= G.
  by rewrite !mulr_ge0 ?ler0n ?noise_factor_ge0 //; apply/leRP/Rlt_le/exp_pos.
exists (C1 + G), (Num.min dt2 dt3), e1; first by rewrite lt_minr dt20.
split; first exact: addr_ge0.
move=> dt N e bb bd db dd /andP[dt0]; rewrite le_minr => /andP[d2 d3] N1 le /andP[e0 ee] sb sdb sdd nb nd ndb.
have N0 := ltnW N1; have h2 : (2^-1 : R) <= 1 by rewrite invf_le1 ?ltr0n // ler1n.
have M1 j : (j < N)%N -> within (M + 1) dd`_j.
  move=> lj; rewrite -[dd`_j](subrK (samples dt N Bd)`_j) [M + 1]addrC; apply: withinD.
    by apply: within_le (nd j lj); apply: le_trans ee e11.
  by rewrite nth_samples //; apply: (proj1 hB); apply: grid dt0 le lj.
have nb0 : within e (bb`_0 - B 0) by have := nb 0%N isT; rewrite nth_samples ?mul0r.
have se : 2 * (c * (d%:R * e)) <= 2^-1.
  by have := small e; rewrite e0 ee => /(_ isT); rewrite -!mulrA.
have sd : 2 * (c * (d%:R * (2^-1 * dt * (M + 1)))) <= 2^-1.
  by have := sdt dt; rewrite dt0 d3 => /(_ isT); rewrite -!mulrA [(M + 1) * dt]mulrC.
have half x : 0 <= x -> 2 * x <= 2^-1 -> x <= 2^-1.
  by move=> x0; apply: le_trans; rewrite ler_pemull // ler1n.
have hc' : coer (2 * c) bb`_0.
  by apply: (coer_near (e := e) c0' hc) => //; apply: half => //; rewrite !mulr_ge0 ?ler0n.
have hc2 : coer (2 * c) (bb`_0 - (2^-1 * dt) *: dd`_0).
  apply: (coer_near (e := e + 2^-1 * dt * (M + 1)) c0' hc).
    rewrite addrAC; apply: withinB => //; apply: withinZp; last exact: M1.
    by rewrite mulr_ge0 ?invr_ge0 ?ler0n ?(ltW dt0).
  have p2 : (0 : R) < 2 by rewrite ltr0n.
  rewrite -(ler_pmul2l p2) [d%:R * _]mulrDr [c * (_ + _)]mulrDr [2 * (_ + _)]mulrDr.
  have -> : 2 * 2^-1 = 2^-1 + 2^-1 :> R by rewrite -mulr2n -mulr_natl.
  by rewrite ler_add.
have [ker E [sk i0 S]] := ck_second_trapz bd sb sdb sdd N0 (coer_unit hc') (coer_unit hc2).
exists ker => //; split=> // i li.
have [X EX [sX hX]] := conv dt N ltac:(by rewrite dt0 d2) N0 le.
have /kernel_values[dd1 [<-] [iX _ SX]] := EX; rewrite /= in iX SX.
have kX j : (j < N)%N -> within kap X`_j.
  move=> lj; rewrite -[X`_j](subrK (K (j%:R * dt))) addrC /kap; apply: withinD.
    by apply: (proj1 hK); apply: grid dt0 le lj.
  apply: within_le (hX j lj); rewrite ler_wpmul2l // ler_expn2r ?nnegrE ?(ltW dt0) //.
  exact: (step_T dt0 N1 le).
have h := @trapz_stable _ d m N dt (2 * c) (M + 1) e e e kap bb`_0 (samples dt N B)`_0 (fun j => dd`_j) (fun j => (samples dt N Bd)`_j)
  (fun j => db`_j) (fun j => (samples dt N Dd)`_j) (fun j => ker`_j) (fun j => X`_j) (ltW dt0) ltac:(by rewrite mulr_ge0 ?ler0n)
  ltac:(by rewrite addr_ge0 ?ler01) e0 e0 e0 k0 M1 (nb 0%N isT) nd ndb kX hc' hc2.
have {h} h : within (G * e) (ker`_i - X`_i).
  apply: within_le (h _ _ i li).
  - by apply: noise_le => //; rewrite mulr_ge0 ?ler0n.
  - case=> [|j] lj; last by apply: S; rewrite sdd.
    by rewrite /trapz_rule big_ord0 scaler0 add0r.
  - case=> [|j] lj; last by apply: SX; rewrite size_samples.
    by rewrite /trapz_rule big_ord0 scaler0 add0r.
exact: (add_errors C10 G0 (exprn_ge0 2 (ltW dt0)) e0 (hX i li) h).
Qed.

Lemma noisy_first (B Bd : R -> 'M[R]_d) (D K : R -> 'M[R]_(d, m)) :
  B 0 \in unitmx -> lipschitz M T B -> lipschitz M T K -> derivative M T B Bd -> volterra1 T B D K ->
  exists C, exists2 dt1, 0 < dt1 & 0 <= C /\ forall dt N e bd db dbb k0,
    0 < dt <= dt1 -> (1 < N)%N -> N.-1%:R * dt <= T -> 0 <= e -> size bd = N ->
    near N e bd (samples dt N D) ->
    exists2 ker, compute_kernel dt N (Corrs (samples dt N B) bd db dbb) MRect k0 = Ok (mkseq (fun i => i%:R * dt) N, ker) &
      size ker = N /\ forall i, (i.+1 < N)%N -> within (C * (dt + e / dt)) (ker`_i - K (i%:R * dt)).
Proof.
move=> u hB hK dB eq.
have [C1 [dt2 dt20 [C10 conv]]] := @first_rect_converges d m T M T0 M0 B Bd D None (fun=> 0) K None u hB hK dB eq.
have [c c0 hc] := unit_coer u; have c0' := ltW c0.
have [dt3 dt30 sdt] := near_coer T0 M0 c0 hB hc.
pose q := 2 * c * (d%:R * M); have q0 : 0 <= q by rewrite !mulr_ge0 ?ler0n.
pose G := 2 * c * 2 * exp (q * T).
have G0 : 0 <= G by rewrite !mulr_ge0 ?ler0n //; apply/leRP/Rlt_le/exp_pos.
exists (C1 + G), (Num.min dt2 dt3); first by rewrite lt_minr dt20.
split; first exact: addr_ge0.
move=> dt N e bd db dbb k0 /andP[dt0]; rewrite le_minr => /andP[d2 d3] N1 le e0 sd nd.
have hc' : coer (2 * c) (samples dt N B)`_1.
  by rewrite nth_samples // mul1r; apply: sdt; rewrite ?dt0 // (step_T dt0 N1 le).
have [ker E [sk S]] := ck_rect db (size_samples dt N B) sd dbb k0 N1 (step_unit dt0 (coer_unit hc')).
exists ker => //; split=> // i li.
have [X EX [sX hX]] := conv dt N ltac:(by rewrite dt0 d2) N1 le.
have /kernel_values[SX _] := EX; rewrite /= in SX.
have ed : 0 <= e / dt by rewrite mulr_ge0 // invr_ge0 ltW.
have h : within (G * (e / dt)) (ker`_i - X`_i).
  apply: within_le (_ : 2 * c * (2 * e / dt) * (1 + 2 * c * (d%:R * M) * dt) ^+ i <= _) _.
    have -> : G * (e / dt) = 2 * c * (2 * e / dt) * exp (q * T).
      by rewrite /G mulrAC -!mulrA.
    apply: ler_wpmul2l; first by rewrite mulr_ge0 ?mulr_ge0 ?ler0n ?invr_ge0 // ltW.
    by apply: pow_exp_T => //; [exact: ltW | have /andP[] := grid dt0 le (ltnW li)].
  apply: (@first_stable _ d m dt (2 * c) M e (samples dt N B) bd (samples dt N D)) => //.
  - by rewrite mulr_ge0 ?ler0n.
  - move=> j; rewrite size_samples => lj; rewrite !nth_samples ?(ltnW lj) //.
    have -> : M * dt = M * `|j.+1%:R * dt - j%:R * dt|.
      by rewrite -mulrBl -natrB // subSnn mul1r ger0_norm ?(ltW dt0).
    by apply: (proj2 hB); [exact: grid dt0 le lj | exact: grid dt0 le (ltnW lj)].
  - by move=> j; rewrite size_samples => /andP[_ lj]; apply: nd.
  - by rewrite size_samples; case: (N) li.
exact: (add_errors C10 G0 (ltW dt0) ed (hX i li) h).
Qed.
End Noise.
