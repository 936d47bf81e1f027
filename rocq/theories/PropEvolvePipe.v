(** * Property C82, from perturbed correlations to the evolution. *)
From Coq Require Import Reals Lra.
From Coquelicot Require Import Coquelicot.
From mathcomp Require Import all_ssreflect all_algebra zify.
From Verif Require Import Base RealsMC FKernel Model Estimator MemorySpec Gfpe Convergence ConvergenceProofs ConvergenceInt ConvergenceMain ConvergenceMain2 ConvergenceMain3.
From Verif Require Import PropStability CorrNoiseProofs PropConvergence PropCorrNoise EvolveConv PropEvolveConv PropEvolveNoise.
Set Implicit Arguments.
Unset Strict Implicit.
Unset Printing Implicit Defensive.
Import Order.TTheory GRing.Theory Num.Theory.
Local Open Scope ring_scope.
Bind Scope ring_scope with Rdefinitions.R.
Local Notation R := Rdefinitions.R.

Section Pipe.
Variables (N : nat) (T M tau : R) (B Bd Bdd Dd K Kd X : R -> 'M[R]_N) (F : 'M[R]_N) (mt : evolve_method).
Hypotheses (T0 : 0 <= T) (M0 : 0 <= M) (tT : tau <= T) (uB : B 0 \in unitmx).
Hypotheses (hB : lipschitz M T Bd) (hK : lipschitz M T K) (eqn : volterra2 T (B 0) Bd Dd K).
Hypotheses (hF : within M F) (hX : lipschitz M T X).
Hypothesis ide : derivative M T X (fun t => X t *m F - mint (fun s => X (t - s) *m K s) 0 (Num.min t tau)).
Hypothesis hm : mt = ERect \/ mt = ETrapz.

(** Correlations known within [e], inverted with rectangles, the kernel being handed over to the
    evolution: the correlations obtained are those of the continuous equation within
    [C (dt + e)]. *)
Theorem C82_pipeline_rect :
  exists C dt1, exists2 e1, 0 < dt1 /\ 0 < e1 & 0 <= C /\ forall dt len q e bb bd db dd,
    0 < dt <= dt1 -> 0 <= e <= e1 -> (0 < len)%N -> (1 < q)%N -> len.-1%:R * dt <= T -> q.-1%:R * dt = tau ->
    size bb = q -> size db = q -> size dd = q ->
    near 1 e bb (samples dt q B) -> near q e dd (samples dt q Bd) -> near q e db (samples dt q Dd) ->
    exists2 ker, compute_kernel dt q (Corrs bb bd db (Some dd)) MSecondRect None = Ok (mkseq (fun i => i%:R * dt) q, ker) &
    exists2 G, evolve_volterra dt (X 0) len mt None F ker = Ok (mkseq (fun i => i%:R * dt) len, G) &
      size G = len /\ forall i, (i < len)%N -> within (C * (dt + e)) (G`_i - X (i%:R * dt)).
Proof.
have [C1 [e1 e10 [C10 inv]]] := C81_noisy_rect T0 M0 uB hB hK eqn.
have [C2 [d2 d20 [C20 ev]]] := C82_noisy_kernel T0 M0 hF hX hK ide hm.
have [s1 p1 sm1] := small_step C10.
exists (C2 * (1 + C1)), (Num.min s1 d2), (Num.min s1 e1); first by rewrite !lt_minr p1 d20 e10.
split; first by rewrite mulr_ge0 // addr_ge0 ?ler01.
move=> dt len q e bb bd db dd /andP[dt0]; rewrite !le_minr => /andP[ds dd2] /andP[e0 /andP[es ee]] l0 q1 le qt s2 s3 s4 n1 n2 n3.
have qT : q.-1%:R * dt <= T by rewrite qt.
have e01 : 0 <= e <= e1 by rewrite e0.
have [ker E [sk hk]] := inv dt q e bb bd db dd dt0 q1 qT e01 s2 s3 s4 n1 n2 n3.
exists ker => //.
have k1 : C1 * dt <= 2^-1 by apply: sm1; rewrite dt0.
have k2 : C1 * e <= 2^-1.
  move: e0; rewrite le_eqVlt => /orP[/eqP <-|e00]; first by rewrite mulr0 invr_ge0 ler0n.
  by apply: sm1; rewrite e00.
have k3 : 0 <= C1 * (dt + e) <= 1.
  rewrite mulr_ge0 ?addr_ge0 ?(ltW dt0) //= mulrDr -(@halves _).
  exact: ler_add.
have [||G EG [sG hG]] := ev dt len q (C1 * (dt + e)) ker _ k3 l0 q1 le qt sk.
- by rewrite dt0.
- by move=> k kq _; exact: hk.
exists G => //; split=> // i li; apply: within_le (hG i li).
rewrite -mulrA; apply: ler_wpmul2l => //.
by rewrite [X in _ <= X]mulrDl mul1r ler_add2r ler_addl.
Qed.

(** The same with an inversion by trapezoids, which gains no order: the evolution is of first order. *)
Theorem C82_pipeline_trapz : derivative M T Bd Bdd -> derivative M T K Kd ->
  exists C dt1, exists2 e1, 0 < dt1 /\ 0 < e1 & 0 <= C /\ forall dt len q e bb bd db dd,
    0 < dt <= dt1 -> 0 <= e <= e1 -> (0 < len)%N -> (1 < q)%N -> len.-1%:R * dt <= T -> q.-1%:R * dt = tau ->
    size bb = q -> size db = q -> size dd = q ->
    near 1 e bb (samples dt q B) -> near q e dd (samples dt q Bd) -> near q e db (samples dt q Dd) ->
    exists2 ker, compute_kernel dt q (Corrs bb bd db (Some dd)) MSecondTrapz None = Ok (mkseq (fun i => i%:R * dt) q, ker) &
    exists2 G, evolve_volterra dt (X 0) len mt None F ker = Ok (mkseq (fun i => i%:R * dt) len, G) &
      size G = len /\ forall i, (i < len)%N -> within (C * (dt + e)) (G`_i - X (i%:R * dt)).
Proof.
move=> dB dK; have [C1 [d1 [e1 [d10 e10] [C10 inv]]]] := C81_noisy_trapz T0 M0 uB hB hK dB dK eqn.
have [C2 [d2 d20 [C20 ev]]] := C82_noisy_kernel T0 M0 hF hX hK ide hm.
have [s1 p1 sm1] := small_step C10.
exists (C2 * (1 + C1)), (Num.min (Num.min s1 (Num.min d1 1)) d2), (Num.min s1 e1); first by rewrite !lt_minr p1 d10 d20 e10 ltr01.
split; first by rewrite mulr_ge0 // addr_ge0 ?ler01.
move=> dt len q e bb bd db dd /andP[dt0]; rewrite !le_minr => /andP[/andP[ds /andP[dd1 dt1]] dd2] /andP[e0 /andP[es ee]] l0 q1 le qt s2 s3 s4 n1 n2 n3.
have qT : q.-1%:R * dt <= T by rewrite qt.
have dtd : 0 < dt <= d1 by rewrite dt0.
have e01 : 0 <= e <= e1 by rewrite e0.
have [ker E [sk hk]] := inv dt q e bb bd db dd dtd q1 qT e01 s2 s3 s4 n1 n2 n3.
exists ker => //.
have k1 : C1 * dt <= 2^-1 by apply: sm1; rewrite dt0.
have k2 : C1 * e <= 2^-1.
  move: e0; rewrite le_eqVlt => /orP[/eqP <-|e00]; first by rewrite mulr0 invr_ge0 ler0n.
  by apply: sm1; rewrite e00.
have k3 : 0 <= C1 * (dt + e) <= 1.
  rewrite mulr_ge0 ?addr_ge0 ?(ltW dt0) //= mulrDr -(@halves _).
  exact: ler_add.
have [||G EG [sG hG]] := ev dt len q (C1 * (dt + e)) ker _ k3 l0 q1 le qt sk.
- by rewrite dt0.
- move=> k kq _; apply: within_le (hk k kq); apply: ler_wpmul2l => //.
  by rewrite ler_add2r expr2 -[X in _ <= X]mulr1; apply: ler_wpmul2l => //; exact: ltW.
exists G => //; split=> // i li; apply: within_le (hG i li).
rewrite -mulrA; apply: ler_wpmul2l => //.
by rewrite [X in _ <= X]mulrDl mul1r ler_add2r ler_addl.
Qed.
End Pipe.
Print Assumptions C82_pipeline_rect.
Print Assumptions C82_pipeline_trapz.

(** *** Hypotheses met: the correlations of [C79_example], the derivative of the force
    correlation being off by [e]. *)
Example C82_pipeline_example mt : mt = ERect \/ mt = ETrapz ->
  exists C dt1, exists2 e1 : R, 0 < dt1 /\ 0 < e1 & 0 <= C /\ forall dt len q e,
    0 < dt <= dt1 -> 0 <= e <= e1 -> (0 < len)%N -> (1 < q)%N -> len.-1%:R * dt <= 1 -> q.-1%:R * dt = 1 ->
    exists2 ker, compute_kernel dt q (Corrs (samples dt q wB) (samples dt q wD) (samples dt q (fun t => wDd t + const_mx e)) (Some (samples dt q wBd)))
        MSecondRect None = Ok (mkseq (fun i => i%:R * dt) q, ker) &
    exists2 G, evolve_volterra dt (wB 0) len mt None 1%:M ker = Ok (mkseq (fun i => i%:R * dt) len, G) &
      size G = len /\ forall i, (i < len)%N -> within (C * (dt + e)) (G`_i - (1 + i%:R * dt)%:M).
Proof.
move=> hm; have [u _ [hB _] _ [_ eq]] := C79_example.
have [hF hX hK ide] := C82_example.
have [C [dt1 [e1 p [C0 H]]]] := C82_pipeline_rect ler01 (ler0n _ 2) (lexx 1) u hB hK eq hF hX ide hm.
exists C, dt1, e1 => //; split=> // dt len q e hd he l0 q1 le qt; have /andP[e0 _] := he.
apply: (H dt len q e) => //; rewrite ?size_mkseq //.
- exact: near_refl.
- exact: near_refl.
- by apply: near_shift; rewrite ?ger0_norm.
Qed.
