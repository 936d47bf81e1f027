(** * Property C82: the evolution of correlations converges to the equation in continuous time. *)
From Coq Require Import Reals Lra.
From Coquelicot Require Import Coquelicot.
From mathcomp Require Import all_ssreflect all_algebra zify.
From Verif Require Import Base RealsMC Quadrature FKernel MemorySpec Gfpe GfpeProofs FKernelProofs EvolveProofs.
From Verif Require Import Tactics Convergence ConvergenceProofs ConvergenceInt ConvergenceMain ConvergenceMain2 ConvergenceMain3 ConvergenceWit StabilityProofs PropConvergence.
From Verif Require Import EvolveConv.
Set Implicit Arguments.
Unset Strict Implicit.
Unset Printing Implicit Defensive.
Import Order.TTheory GRing.Theory Num.Theory.
Local Open Scope ring_scope.
Bind Scope ring_scope with Rdefinitions.R.
Local Notation R := Rdefinitions.R.

(** [X] solves [X'(t) = X(t) F - int_0^(min t tau) X(t - s) K(s) ds] on [[0, T]], [tau] being the
    length of the kernel: both methods follow it to first order in the time step, with the same
    constant for every step, every number of samples computed and every sampling of the kernel. *)
Theorem C82_evolve_converges N (T M tau : R) (F : 'M[R]_N) (K X : R -> 'M[R]_N) mt :
  0 <= T -> 0 <= M -> within M F -> lipschitz M T X -> lipschitz M T K ->
  derivative M T X (fun t => X t *m F - mint (fun s => X (t - s) *m K s) 0 (Num.min t tau)) ->
  mt = ERect \/ mt = ETrapz ->
  exists C, exists2 dt1, 0 < dt1 & 0 <= C /\ forall dt len q,
    0 < dt <= dt1 -> (0 < len)%N -> (1 < q)%N -> len.-1%:R * dt <= T -> q.-1%:R * dt = tau ->
    exists2 G, evolve_volterra dt (X 0) len mt None F (samples dt q K) = Ok (mkseq (fun i => i%:R * dt) len, G) &
      size G = len /\ forall i, (i < len)%N -> within (C * dt) (G`_i - X (i%:R * dt)).
Proof. move=> T0 M0 hF hX hK ide; exact: (evolve_converges T0 M0 hF hX hK ide). Qed.
Print Assumptions C82_evolve_converges.

(** *** Hypotheses met: [X(t) = 1 + t], [F = 1], the kernel being [exp (- t)]. *)
Example C82_example :
  [/\ within 2 (1%:M : 'M[R]_1), lipschitz 2 1 wB, lipschitz 2 1 wK
    & derivative 2 1 wB (fun t => wB t *m 1%:M - mint (fun s => wB (t - s) *m wK s) 0 (Num.min t 1))].
Proof.
have [_ [hB dB] _ [hK _] [eq _]] := C79_example.
split=> //; first by apply: within1; rewrite normr1 ler1n.
move=> x y hx hy; have -> : wB x *m 1%:M - mint (fun s => wB (x - s) *m wK s) 0 (Num.min x 1) = wBt x.
  have -> : Num.min x 1 = x by apply/min_idPl; case/andP: hx.
  have -> : mint (fun s => wB (x - s) *m wK s) 0 x = - wD x by exact: eq.
  by rewrite mulmx1 opprK /wB /wD /wBt -raddfD /= addrK.
exact: dB.
Qed.

Example C82_example_runs mt : mt = ERect \/ mt = ETrapz ->
  exists C, exists2 dt1 : R, 0 < dt1 & 0 <= C /\ forall dt len q,
    0 < dt <= dt1 -> (0 < len)%N -> (1 < q)%N -> len.-1%:R * dt <= 1 -> q.-1%:R * dt = 1 ->
    exists2 G, evolve_volterra dt (wB 0) len mt None 1%:M (samples dt q wK) = Ok (mkseq (fun i => i%:R * dt) len, G) &
      size G = len /\ forall i, (i < len)%N -> within (C * dt) (G`_i - (1 + i%:R * dt)%:M).
Proof.
have [hF hX hK ide] := C82_example.
by apply: (C82_evolve_converges ler01 (ler0n _ 2) hF hX hK ide).
Qed.

(** *** Second order is out of reach, even with trapezoids
    Without memory and with a nilpotent force, the exact solution is a polynomial and the error
    is exactly half the time step times the time. *)
Definition nF : 'M[R]_3 := \matrix_(i, j) ((j : nat) == i.+1)%:R.
Definition nX (t : R) : 'M[R]_3 := 1%:M + t *: nF + (2^-1 * t ^+ 2) *: (nF *m nF).

Section Half.
Variable F : realFieldType.
Add Field RF : (mc_field_theory F).
Local Ltac rng := fold_ring (Num.RealField.fieldType F); ring.
Lemma halves : (2^-1 : F) + 2^-1 = 1.
Proof. by rewrite -mulr2n -mulr_natr mulVf // pnatr_eq0. Qed.
Lemma half_square' (h x y : F) : h * ((y - x) * (y - x)) = h * (y * y) - h * (x * x) - (h + h) * ((y - x) * x).
Proof. rng. Qed.
Lemma half_square (x y : F) : 2^-1 * (y - x) ^+ 2 = 2^-1 * y ^+ 2 - 2^-1 * x ^+ 2 - (y - x) * x.
Proof. by rewrite !expr2 half_square' halves mul1r. Qed.
Lemma euler_coef' (h i dt : F) :
  (h + h) * (dt * (i * dt)) + h * (i * (i - 1)) * (dt * dt) = h * ((i + 1) * i) * (dt * dt).
Proof. rng. Qed.
Lemma euler_coef (i dt : F) : dt * (i * dt) + 2^-1 * (i * (i - 1)) * dt ^+ 2 = 2^-1 * ((i + 1) * i) * dt ^+ 2.
Proof. by rewrite !expr2 -euler_coef' halves mul1r. Qed.
Lemma euler_gap' (h i dt : F) : h * (i * (i - 1)) * (dt * dt) - h * ((i * dt) * (i * dt)) = - (h * (i * dt) * dt).
Proof. rng. Qed.
Lemma euler_gap (i dt : F) : 2^-1 * (i * (i - 1)) * dt ^+ 2 - 2^-1 * (i * dt) ^+ 2 = - (2^-1 * (i * dt) * dt).
Proof. by rewrite !expr2 euler_gap'. Qed.
End Half.

Lemma nF2 i j : (nF *m nF) i j = ((j : nat) == i.+2)%:R.
Proof.
rewrite mxE !big_ord_recl big_ord0 !mxE /= /bump /=.
by case: i => -[|[|[|]]] //= _; case: j => -[|[|[|]]] //= _; rewrite ?mul0r ?mulr0 ?mul1r ?addr0 ?add0r.
Qed.

Lemma nF3 : nF *m nF *m nF = 0.
Proof.
apply/matrixP => i j; rewrite !mxE big1 // => k _; rewrite nF2 !mxE.
by case: i => -[|[|[|]]] //= _; case: j => -[|[|[|]]] //= _; case: k => -[|[|[|]]] //= _; rewrite ?mul0r ?mulr0.
Qed.

Lemma within_nF : within 1 nF.
Proof. by move=> i j; rewrite mxE; case: eqP; rewrite ?normr1 ?normr0 ?ler01. Qed.
Lemma within_nF2 : within 1 (nF *m nF).
Proof. by move=> i j; rewrite nF2; case: eqP; rewrite ?normr1 ?normr0 ?ler01. Qed.

Lemma within_sc (e w : R) p (A : 'M[R]_p) : within 1 A -> `|e| <= w -> within w (e *: A).
Proof.
move=> h le i j; rewrite mxE normrM; apply: le_trans le.
by rewrite -[X in _ <= X]mulr1; apply: ler_wpmul2l.
Qed.

Lemma nX_ide (t : R) : nX t *m nF - mint (fun s => nX (t - s) *m (0 : 'M[R]_3)) 0 (Num.min t 1) = nF + t *: (nF *m nF).
Proof.
have -> : mint (fun s => nX (t - s) *m (0 : 'M[R]_3)) 0 (Num.min t 1) = 0.
  apply/matrixP => i j; rewrite !mxE (RInt_ext _ (fun _ => R0)); last by move=> s _; rewrite mulmx0 mxE.
  by rewrite RInt_const /scal /= /mult /= Rmult_0_r.
by rewrite subr0 /nX !mulmxDl mul1mx -!scalemxAl nF3 scaler0 addr0.
Qed.

Lemma nX_reg : lipschitz 3 1 nX /\ derivative 3 1 nX (fun t => nX t *m nF - mint (fun s => nX (t - s) *m (0 : 'M[R]_3)) 0 (Num.min t 1)).
Proof.
have h2 : (2^-1 : R) <= 1 by rewrite invf_le1 ?ltr0n // ler1n.
have p2 : 0 <= (2^-1 : R) by rewrite invr_ge0 ler0n.
have three : (3 : R) = 1 + 1 + 1 by rewrite -addrA.
split; first split.
- move=> x /andP[x0 x1]; rewrite three; apply: withinD; first apply: withinD.
  + by move=> i j; rewrite mxE; case: eqP; rewrite ?normr1 ?normr0 ?ler01.
  + by apply: within_sc within_nF _; rewrite ger0_norm.
  + apply: within_sc within_nF2 _; rewrite ger0_norm ?mulr_ge0 ?exprn_ge0 //.
    by rewrite -[X in _ <= X]mulr1; apply: ler_pmul => //; rewrite ?exprn_ge0 // exprn_ile1.
- move=> x y /andP[x0 x1] /andP[y0 y1].
  have -> : nX x - nX y = (x - y) *: nF + (2^-1 * (x + y) * (x - y)) *: (nF *m nF).
    rewrite -mulrA [(x + y) * _]mulrC -subr_sqr mulrBr !scalerBl /nX.
    set a := _ *: nF; set b := _ *: nF; set c := _ *: (nF *m nF); set d := _ *: (nF *m nF).
    by abel.
  apply: within_le (_ : `|x - y| + `|x - y| <= _) _.
    rewrite three !mulrDl !mul1r -[X in X <= _]addr0; exact: ler_add.
  apply: withinD; first exact: within_sc within_nF _.
  apply: within_sc within_nF2 _; rewrite normrM -[X in _ <= X]mul1r; apply: ler_wpmul2r => //.
  rewrite ger0_norm ?mulr_ge0 ?addr_ge0 // mulrDr; apply: (le_trans (y := 2^-1 + 2^-1)); last by rewrite halves.
  by apply: ler_add; rewrite -[X in _ <= X]mulr1; apply: ler_wpmul2l.
- move=> x y _ _; rewrite nX_ide.
  have -> : nX y - nX x - (y - x) *: (nF + x *: (nF *m nF)) = (2^-1 * (y - x) ^+ 2) *: (nF *m nF).
    rewrite half_square scalerDr scalerA /nX !scalerBl.
    set a := _ *: nF; set b := _ *: nF; set c := _ *: (nF *m nF); set d := _ *: (nF *m nF); set e := _ *: (nF *m nF).
    by abel.
  apply: within_sc within_nF2 _; rewrite ger0_norm; last by apply: mulr_ge0 => //; exact: sqr_ge0.
  by apply: ler_wpmul2r; rewrite ?sqr_ge0 // (le_trans h2) // ler1n.
Qed.

Lemma mem_quad_zero (dt : R) mt n (G : seq 'M[R]_3) (K : seq 'M[R]_3) i :
  0 < dt -> (0 < n)%N -> (forall k, K`_k = 0) -> mem_quad dt mt n (mem_integrand G K i) = 0.
Proof.
move=> dt0 n0 K0; pose f := mem_integrand G K i.
rewrite (@mem_quad_lin _ _ _ dt (ltW dt0) mt n f f f) ?subrr // => j _.
by rewrite /f /mem_integrand K0 !mulmx0 ?subr0.
Qed.

Theorem C82_second_order_refuted :
  exists (F : 'M[R]_3) (K X : R -> 'M[R]_3),
    [/\ within 3 F, lipschitz 3 1 X, lipschitz 3 1 K,
        derivative 3 1 X (fun t => X t *m F - mint (fun s => X (t - s) *m K s) 0 (Num.min t 1))
      & forall dt len q mt, 0 < dt -> (0 < len)%N -> (1 < q)%N -> mt = ERect \/ mt = ETrapz ->
        exists2 G, evolve_volterra dt (X 0) len mt None F (samples dt q K) = Ok (mkseq (fun i => i%:R * dt) len, G) &
          forall i, (i < len)%N -> (G`_i - X (i%:R * dt)) ord0 ord_max = - (2^-1 * (i%:R * dt) * dt)].
Proof.
exists nF, (fun _ => 0), nX; have [hX dX] := nX_reg.
have z3 : 0 <= (3 : R) by rewrite ler0n.
split=> //.
- by apply: within_le within_nF; rewrite ler1n.
- split=> [x _|x y _ _] i j; rewrite ?subrr mxE normr0 //.
  by rewrite mulr_ge0.
move=> dt len q mt dt0 l0 q1 hm.
have K0 k : (samples dt q (fun _ => 0 : 'M[R]_3))`_k = 0.
  have [lk|lk] := ltnP k q; first by rewrite nth_samples.
  by rewrite nth_default // size_samples.
have [|||G E [sG G0 S]] := @evolve_runs _ _ dt (nX 0) len mt nF (samples dt q (fun _ => 0)) hm l0.
- by rewrite size_samples.
- by rewrite K0 scaler0 addr0 unitmx1.
- by rewrite K0 scaler0 addr0 unitmx1.
exists G => // i li.
have -> : G`_i = 1%:M + (i%:R * dt) *: nF + (2^-1 * (i%:R * (i%:R - 1)) * dt ^+ 2) *: (nF *m nF).
  elim: i li => [_|i IH li].
    by rewrite G0 /nX expr0n /= !mul0r !mulr0 ?mul0r !scale0r.
  have := S i.+1; rewrite li /= => /(_ isT).
  rewrite (@mem_quad_zero dt mt) //; last by rewrite size_samples; move: q1; clear; lia.
  rewrite IH ?(ltnW li) // subr0 !mulmxDl mul1mx -!scalemxAl nF3 scaler0 addr0 scalerDr scalerA.
  move/eqP; rewrite subr_eq => /eqP ->; rewrite mulrSr mulrDl mul1r scalerDl.
  rewrite addrK -euler_coef !scalerDl.
  set a := _ *: nF; set b := _ *: nF; set c := _ *: (nF *m nF); set d := _ *: (nF *m nF).
  by abel.
rewrite /nX opprD addrACA; have -> : 1%:M + (i%:R * dt) *: nF - (1%:M + (i%:R * dt) *: nF) = 0 by rewrite subrr.
rewrite [0 + _]add0r -scalerBl mxE nF2 eqxx mulr1.
exact: euler_gap.
Qed.
Print Assumptions C82_second_order_refuted.
