(** * Property C82, continued: evolution with a kernel that is itself computed. *)
From Coq Require Import Reals Lra.
From Coquelicot Require Import Coquelicot.
From mathcomp Require Import all_ssreflect all_algebra zify.
From Verif Require Import Base RealsMC Quadrature FKernel Model Estimator FKernelSpec KernelSpec MemorySpec Gfpe GfpeProofs FKernelProofs EvolveProofs.
From Verif Require Import Tactics Convergence ConvergenceProofs ConvergenceInt ConvergenceMain ConvergenceMain2 ConvergenceMain3 ConvergenceWit StabilityProofs PropConvergence.
From Verif Require Import EvolveConv PropEvolveConv EvolveNoise.
Set Implicit Arguments.
Unset Strict Implicit.
Unset Printing Implicit Defensive.
Import Order.TTheory GRing.Theory Num.Theory.
Local Open Scope ring_scope.
Bind Scope ring_scope with Rdefinitions.R.
Local Notation R := Rdefinitions.R.

(** A kernel known within [eps] at its samples. *)
Theorem C82_noisy_kernel N (T M tau : R) (F : 'M[R]_N) (K X : R -> 'M[R]_N) mt :
  0 <= T -> 0 <= M -> within M F -> lipschitz M T X -> lipschitz M T K ->
  derivative M T X (fun t => X t *m F - mint (fun s => X (t - s) *m K s) 0 (Num.min t tau)) ->
  mt = ERect \/ mt = ETrapz ->
  exists C, exists2 dt1, 0 < dt1 & 0 <= C /\ forall dt len q eps (Ks : seq 'M[R]_N),
    0 < dt <= dt1 -> 0 <= eps <= 1 -> (0 < len)%N -> (1 < q)%N -> len.-1%:R * dt <= T -> q.-1%:R * dt = tau ->
    size Ks = q -> (forall k, (k < q)%N -> k%:R * dt <= T -> within eps (Ks`_k - K (k%:R * dt))) ->
    exists2 G, evolve_volterra dt (X 0) len mt None F Ks = Ok (mkseq (fun i => i%:R * dt) len, G) &
      size G = len /\ forall i, (i < len)%N -> within (C * (dt + eps)) (G`_i - X (i%:R * dt)).
Proof. move=> T0 M0 hF hX hK ide; exact: (evolve_noisy T0 M0 hF hX hK ide). Qed.
Print Assumptions C82_noisy_kernel.

(** Inversion of the correlations followed by the evolution: the kernel handed over is the one
    computed, and the evolved correlations still converge to first order. *)
Theorem C82_inverted_kernel N (T M tau : R) (B Bd D Dd K X : R -> 'M[R]_N) (F : 'M[R]_N) mt :
  0 <= T -> 0 <= M -> tau <= T -> B 0 \in unitmx -> lipschitz M T Bd -> volterra2 T (B 0) Bd Dd K ->
  within M F -> lipschitz M T X -> lipschitz M T K ->
  derivative M T X (fun t => X t *m F - mint (fun s => X (t - s) *m K s) 0 (Num.min t tau)) ->
  mt = ERect \/ mt = ETrapz ->
  exists C, exists2 dt1, 0 < dt1 & 0 <= C /\ forall dt len q,
    0 < dt <= dt1 -> (0 < len)%N -> (1 < q)%N -> len.-1%:R * dt <= T -> q.-1%:R * dt = tau ->
    exists2 ker, compute_kernel dt q (Corrs (samples dt q B) (samples dt q D) (samples dt q Dd) (Some (samples dt q Bd)))
        MSecondRect None = Ok (mkseq (fun i => i%:R * dt) q, ker) &
    exists2 G, evolve_volterra dt (X 0) len mt None F ker = Ok (mkseq (fun i => i%:R * dt) len, G) &
      size G = len /\ forall i, (i < len)%N -> within (C * dt) (G`_i - X (i%:R * dt)).
Proof.
move=> T0 M0 tT uB hB eq hF hX hK ide hm.
have [C1 C10 inv] := C79_second_rect D M0 uB hB hK T0 eq.
have [C2 [d2 d20 [C20 ev]]] := C82_noisy_kernel T0 M0 hF hX hK ide hm.
have [s1 p1 sm1] := small_step C10.
exists (C2 * (1 + C1)), (Num.min s1 d2); first by rewrite lt_minr p1.
split; first by rewrite mulr_ge0 // addr_ge0 ?ler01.
move=> dt len q /andP[dt0]; rewrite le_minr => /andP[ds dd] l0 q1 le qt.
have qT : q.-1%:R * dt <= T by rewrite qt.
have [ker E [sk hk]] := inv dt q dt0 (ltnW q1) qT.
exists ker => //.
have h2 : (2^-1 : R) <= 1 by rewrite invf_le1 ?ltr0n // ler1n.
have [|||G EG [sG hG]] := ev dt len q (C1 * dt) ker _ _ l0 q1 le qt sk.
- by rewrite dt0.
- by rewrite mulr_ge0 ?(ltW dt0) //= (le_trans _ h2) // sm1 // dt0.
- by move=> k kq _; exact: hk.
exists G => //; split=> // i li.
have -> : C2 * (1 + C1) * dt = C2 * (dt + C1 * dt) by rewrite -mulrA [(1 + C1) * dt]mulrDl mul1r.
exact: hG.
Qed.
Print Assumptions C82_inverted_kernel.

(** *** Hypotheses met: the kernel [exp (- t)] recovered from [B(t) = 1 + t] and handed over to the
    evolution, whose solution is [1 + t]. *)
Example C82_inverted_example mt : mt = ERect \/ mt = ETrapz ->
  exists C, exists2 dt1 : R, 0 < dt1 & 0 <= C /\ forall dt len q,
    0 < dt <= dt1 -> (0 < len)%N -> (1 < q)%N -> len.-1%:R * dt <= 1 -> q.-1%:R * dt = 1 ->
    exists2 ker, compute_kernel dt q (Corrs (samples dt q wB) (samples dt q wD) (samples dt q wDd) (Some (samples dt q wBd)))
        MSecondRect None = Ok (mkseq (fun i => i%:R * dt) q, ker) &
    exists2 G, evolve_volterra dt (wB 0) len mt None 1%:M ker = Ok (mkseq (fun i => i%:R * dt) len, G) &
      size G = len /\ forall i, (i < len)%N -> within (C * dt) (G`_i - (1 + i%:R * dt)%:M).
Proof.
have [u _ [hB _] _ [_ eq]] := C79_example.
have [hF hX hK ide] := C82_example.
by apply: (C82_inverted_kernel (M := 2) wD ler01 (ler0n _ 2) (lexx 1) u hB eq hF hX hK ide).
Qed.

(** The step [1/n] is admissible whatever [n] is large enough: [len] and [q] exist. *)
Example C82_steps (n : nat) : (0 < n)%N ->
  [/\ 0 < (n%:R^-1 : R), (n.+1.-1%:R * n%:R^-1 : R) <= 1 & (n.+1.-1%:R * n%:R^-1 : R) = 1].
Proof. by move=> n0; rewrite invr_gt0 ltr0n n0 mulfV ?lexx // pnatr_eq0 -lt0n. Qed.
