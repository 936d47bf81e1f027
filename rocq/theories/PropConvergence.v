(** * Property C79: the inversion converges to the kernel of the equation in continuous time. *)
From Coq Require Import Reals Lra.
From Coquelicot Require Import Coquelicot.
From mathcomp Require Import all_ssreflect all_algebra zify.
From Verif Require Import Base RealsMC Quadrature FKernel Model Estimator FKernelSpec KernelSpec KernelValues FKernelProofs FKernelProofs2.
From Verif Require Import Tactics VolterraMain Convergence ConvergenceProofs ConvergenceInt ConvergenceMain ConvergenceMain2 ConvergenceMain3 ConvergenceWit.
Set Implicit Arguments.
Unset Strict Implicit.
Unset Printing Implicit Defensive.
Import Order.TTheory GRing.Theory Num.Theory.
Local Open Scope ring_scope.
Bind Scope ring_scope with Rdefinitions.R.
Local Notation R := Rdefinitions.R.

(** Second kind, rectangles: first order in the time step, the constant [C] being the same
    for every step and every number of samples.  [D] does not enter. *)
Theorem C79_second_rect d m (T M : R) (B Bd : R -> 'M[R]_d) (D Dd K : R -> 'M[R]_(d, m)) :
  0 <= M -> B 0 \in unitmx -> lipschitz M T Bd -> lipschitz M T K -> 0 <= T ->
  volterra2 T (B 0) Bd Dd K ->
  exists2 C, 0 <= C & forall dt N, 0 < dt -> (0 < N)%N -> N.-1%:R * dt <= T ->
    exists2 ker, compute_kernel dt N (Corrs (samples dt N B) (samples dt N D) (samples dt N Dd) (Some (samples dt N Bd)))
        MSecondRect None = Ok (mkseq (fun i => i%:R * dt) N, ker) &
      size ker = N /\ forall i, (i < N)%N -> within (C * dt) (ker`_i - K (i%:R * dt)).
Proof. by move=> M0 u hB hK T0; apply: second_rect_converges T0 M0 _ _ _ _ _ u hB hK. Qed.
Print Assumptions C79_second_rect.

(** Second kind, trapezoids: second order. *)
Theorem C79_second_trapz d m (T M : R) (B Bd Bdd : R -> 'M[R]_d) (D Dd K Kd : R -> 'M[R]_(d, m)) :
  0 <= M -> B 0 \in unitmx -> lipschitz M T Bd -> lipschitz M T K -> 0 <= T ->
  derivative M T Bd Bdd -> derivative M T K Kd -> volterra2 T (B 0) Bd Dd K ->
  exists C, exists2 dt1, 0 < dt1 & 0 <= C /\ forall dt N, 0 < dt <= dt1 -> (0 < N)%N -> N.-1%:R * dt <= T ->
    exists2 ker, compute_kernel dt N (Corrs (samples dt N B) (samples dt N D) (samples dt N Dd) (Some (samples dt N Bd)))
        MSecondTrapz None = Ok (mkseq (fun i => i%:R * dt) N, ker) &
      size ker = N /\ forall i, (i < N)%N -> within (C * dt ^+ 2) (ker`_i - K (i%:R * dt)).
Proof. by move=> M0 u hB hK T0 dB dK; apply: second_trapz_converges T0 M0 _ _ _ _ _ _ _ u hB hK dB dK. Qed.
Print Assumptions C79_second_trapz.

(** First kind, rectangles: first order, at every sample but the last one (never computed, C05). *)
Theorem C79_first_rect d m (T M : R) (B Bd : R -> 'M[R]_d) (D Dd K : R -> 'M[R]_(d, m)) dbb k0 :
  0 <= M -> B 0 \in unitmx -> lipschitz M T B -> lipschitz M T K -> 0 <= T ->
  derivative M T B Bd -> volterra1 T B D K ->
  exists C, exists2 dt1, 0 < dt1 & 0 <= C /\ forall dt N, 0 < dt <= dt1 -> (1 < N)%N -> N.-1%:R * dt <= T ->
    exists2 ker, compute_kernel dt N (Corrs (samples dt N B) (samples dt N D) (samples dt N Dd) dbb)
        MRect k0 = Ok (mkseq (fun i => i%:R * dt) N, ker) &
      size ker = N /\ forall i, (i.+1 < N)%N -> within (C * dt) (ker`_i - K (i%:R * dt)).
Proof. by move=> M0 u hB hK T0 dB; apply: first_rect_converges T0 M0 _ _ _ _ _ _ _ u hB hK dB. Qed.
Print Assumptions C79_first_rect.

(** Midpoints: the first sample converges to half of the kernel at time zero. *)
Theorem C79_midpoint_half d m (T M : R) (B : R -> 'M[R]_d) (D K : R -> 'M[R]_(d, m)) dxs dbb k0 :
  0 <= M -> B 0 \in unitmx -> lipschitz M T B -> lipschitz M T K -> 0 <= T -> volterra1 T B D K ->
  exists C, exists2 dt1, 0 < dt1 & 0 <= C /\ forall dt N times ker, 0 < dt <= dt1 -> (1 < N)%N -> dt <= T ->
    compute_kernel dt N (Corrs (samples dt N B) (samples dt N D) dxs dbb) MMidpoint k0 = Ok (times, ker) ->
    within (C * dt) (ker`_0 - 2^-1 *: K 0).
Proof. move=> M0 u hB hK T0 eq; exact: (@midpoint_half d m T M T0 M0 B D dxs dbb K k0 u hB hK eq). Qed.
Print Assumptions C79_midpoint_half.

(** The quadratures of fkernel.f90 against the integral they stand for: first order for
    rectangles. *)
Theorem C79_rect_integral d m (T M dt : R) N (B : R -> 'M[R]_d) (K : R -> 'M[R]_(d, m)) i :
  0 <= M -> lipschitz M T B -> lipschitz M T K -> 0 < dt -> N.-1%:R * dt <= T -> (i < N)%N ->
  exists2 q, rect_integral dt i (samples dt N B) (samples dt N K) = Ok q &
    within (T * (2 * (d%:R * (M * M))) * dt) (mint (fun s => B (i%:R * dt - s) *m K s) 0 (i%:R * dt) - q).
Proof.
move=> M0 hB hK dt0 le li.
rewrite rect_integralE ?size_samples ?(ltnW li) //; eexists; first by [].
have := rect_residual M0 hB hK dt0 le li; rewrite /rect_rule /LC -mulr2n [2 * _]mulr_natl => h.
have -> // : \sum_(j < i) (samples dt N B)`_(i - j) *m (samples dt N K)`_j =
  \sum_(j < i) (samples dt N B)`_(i - j) *m K (j%:R * dt).
by apply: eq_bigr => j _; rewrite (nth_samples dt K) // (ltn_trans (ltn_ord j)).
Qed.
Print Assumptions C79_rect_integral.

(** Second order for trapezoids, once the last half panel, left to the caller, is added. *)
Theorem C79_trapz_integral d m (T M dt : R) N (B Bd : R -> 'M[R]_d) (K Kd : R -> 'M[R]_(d, m)) i :
  0 <= M -> lipschitz M T B -> lipschitz M T K -> derivative M T B Bd -> derivative M T K Kd ->
  0 < dt -> N.-1%:R * dt <= T -> (0 < i < N)%N ->
  exists2 q, trapz_integral dt i (samples dt N B) (samples dt N K) = Ok q &
    within (T * (6%:R * (d%:R * (M * M))) * dt ^+ 2)
      (mint (fun s => B (i%:R * dt - s) *m K s) 0 (i%:R * dt) - (q + (2^-1 * dt) *: (B 0 *m K (i%:R * dt)))).
Proof.
move=> M0 hB hK dB dK dt0 le /andP[i0 li].
rewrite trapz_integralE ?size_samples ?(ltnW li) ?(leq_ltn_trans _ li) //; eexists; first by [].
have := trapz_residual M0 hB hK dt0 le dB dK li.
rewrite [2 * (_ * _)]mulrA -natrM /= trapz_ruleE // => h.
set q := (X in _ - X) in h *; set q' := (X in _ - X).
have N0 : (0 < N)%N := leq_ltn_trans (leq0n i) li.
have -> // : q' = q; rewrite /q /q' subn0 subnn [(samples dt N K)`_0]nth_samples // [(samples dt N B)`_0]nth_samples //.
rewrite mul0r; congr (_ + _ *: _ + _).
rewrite !big_nat; apply: eq_bigr => j /andP[_ lj].
by rewrite (nth_samples dt K) // (ltn_trans lj).
Qed.
Print Assumptions C79_trapz_integral.

(** *** The midpoint method *)
Theorem C79_midpoint_refuted :
  exists (B D K : R -> 'M[R]_1),
    [/\ B 0 = 1%:M, lipschitz 1 1 B, lipschitz 1 1 K, volterra1 1 B D K
      & forall dt N dxs dbb k0, 0 < dt -> (1 < N)%N ->
        exists times ker, compute_kernel dt N (Corrs (samples dt N B) (samples dt N D) dxs dbb) MMidpoint k0 = Ok (times, ker)
          /\ ker`_0 - K (times`_0) = (- 2^-1)%:M].
Proof.
exists (fun _ => 1%:M), (fun t => (- t)%:M), (fun _ => 1%:M).
have lip : lipschitz 1 1 (fun _ : R => 1%:M : 'M[R]_1).
  split=> [x _|x y _ _] i j; rewrite !ord1 !mxE eqxx; first by rewrite normr1.
  by rewrite subrr normr0 mul1r normr_ge0.
split=> // [t ht|dt N dxs dbb k0 dt0 N1].
  apply/matrixP => i j; rewrite !ord1 /mint !mxE eqxx !mulr1n opprK.
  rewrite (RInt_ext _ (fun _ => R1)); last by move=> s _; rewrite big_ord1 !mxE eqxx mulr1.
  by rewrite RInt_const /scal /= /mult /= Rmult_1_r Rminus_0_r.
have [||||K E [sK _ _]] := @mid_run _ 1 1 (nseq (midpoint_len N) 0) dt (samples dt N (fun _ => 1%:M)) (samples dt N (fun t => (- t)%:M)).
- by rewrite size_nseq size_samples.
- by rewrite !size_samples.
- by rewrite size_samples.
- by rewrite nth_samples // scalemx1 unitmxE det_scalar1 unitfE mulf_neq0 ?pnatr_eq0 ?gt_eqF.
exists (slice_back 1 2 (mkseq (fun i => i%:R * dt) N)), K.
have E2 : compute_kernel dt N (Corrs (samples dt N (fun _ => 1%:M)) (samples dt N (fun t => (- t)%:M)) dxs dbb) MMidpoint k0 =
    Ok (slice_back 1 2 (mkseq (fun i => i%:R * dt) N), K).
  rewrite /compute_kernel (ltnW N1) /= /kernel_first_kind_midpoint size_samples E /=.
  rewrite size_mkseq size_mkseq sK size_samples.
  have -> : slice_len 0 (N - 1) 2 = midpoint_len N by move: N1; clear; rewrite /slice_len /midpoint_len; case: ifP; lia.
  by rewrite eqxx.
split=> //.
have /kernel_values /= /(_ 0%N) := E2.
rewrite size_samples leq_max big_ord0 add0r muln0 add0n => /(_ isT).
rewrite !nth_samples // mul1r mul1mx.
move=> E3; have -> : K`_0 = 2^-1%:M.
  have n0 : 2 * dt != 0 by rewrite mulf_neq0 ?pnatr_eq0 ?gt_eqF.
  apply: (scalerI n0); by rewrite E3 -raddfN opprK scale_scalar_mx mulrAC divff ?mul1r ?pnatr_eq0.
rewrite -raddfB /=; congr (_%:M).
by rewrite {2}(splitr 1) opprD addrA div1r subrr add0r.
Qed.
Print Assumptions C79_midpoint_refuted.

(** *** Hypotheses met: [B(t) = 1 + t], [D(t) = - t], the kernel being [exp (- t)]. *)
Definition wB (t : R) : 'M[R]_1 := (1 + t)%:M.
Definition wBt (t : R) : 'M[R]_1 := 1%:M.
Definition wBd (t : R) : 'M[R]_1 := (- 1)%:M.
Definition wD (t : R) : 'M[R]_1 := (- t)%:M.
Definition wDd (t : R) : 'M[R]_1 := 1%:M.
Definition wK (t : R) : 'M[R]_1 := (exp (- t))%:M.
Definition wKt (t : R) : 'M[R]_1 := (- exp (- t))%:M.

Lemma within1 (e x : R) : `|x| <= e -> within e (x%:M : 'M[R]_1).
Proof. by move=> h i j; rewrite !ord1 mxE eqxx. Qed.

Lemma mint1 (f : R -> R) (x y : R) : mint (fun s => (f s)%:M : 'M[R]_1) x y = (RInt f x y)%:M.
Proof.
apply/matrixP => i j; rewrite !ord1 !mxE eqxx mulr1n; apply: RInt_ext => s _.
by rewrite mxE eqxx.
Qed.

Lemma mint_ext (F G : R -> 'M[R]_1) (x y : R) : (forall s, F s = G s) -> mint F x y = mint G x y.
Proof. by move=> h; apply/matrixP => i j; rewrite !mxE; apply: RInt_ext => s _; rewrite h. Qed.

Example C79_example :
  [/\ wB 0 \in unitmx, lipschitz 2 1 wB /\ derivative 2 1 wB wBt, lipschitz 2 1 wBd /\ derivative 2 1 wBd (fun=> 0),
      lipschitz 2 1 wK /\ derivative 2 1 wK wKt & volterra1 1 wB wD wK /\ volterra2 1 (wB 0) wBd wDd wK].
Proof.
have ge0 (x : R) : 0 <= x <= 1 -> Rle R0 x by move=> /andP[/leRP].
have le1 (x : R) : 0 <= x <= 1 -> Rle x R1 by move=> /andP[_ /leRP].
have le12 : (1 : R) <= 2 by rewrite ler1n.
split.
- by rewrite /wB addr0 unitmx1.
- split; first split=> [x hx|x y hx hy].
  + by apply: within1; rewrite ger0_norm ?addr_ge0 ?ler01 //; [apply: ler_add; case/andP: hx | case/andP: hx].
  + rewrite -raddfB /=; apply: within1; rewrite opprD addrACA subrr add0r.
    by rewrite -[X in X <= _]mul1r ler_wpmul2r ?normr_ge0.
  + move=> x y _ _; have -> : wB y - wB x - (y - x) *: wBt x = 0.
      by rewrite /wB /wBt scalemx1 -!raddfB /= opprD addrACA subrr add0r subrr raddf0.
    by move=> i j; rewrite mxE normr0 mulr_ge0 ?sqr_ge0 ?ler0n.
- split; first split=> [x hx|x y hx hy].
  + by apply: within1; rewrite normrN1.
  + by rewrite subrr => i j; rewrite mxE normr0 mulr_ge0 ?normr_ge0 ?ler0n.
  + by move=> x y _ _ i j; rewrite subrr scaler0 subrr mxE normr0 mulr_ge0 ?sqr_ge0 ?ler0n.
- split; first split=> [x hx|x y hx hy].
  + apply: within1; apply: le_trans le12; apply/leRP; have [h1 h2] := exp_le1 (ge0 _ hx).
    by rewrite [X in Rle X _]Rabs_pos_eq.
  + rewrite -raddfB /=; apply: within1; apply: le_trans (_ : `|x - y| <= _).
      by apply/leRP; apply: exp_lip; apply: ge0.
    by rewrite -[X in X <= _]mul1r ler_wpmul2r ?normr_ge0.
  + move=> x y hx hy; rewrite /wK /wKt scale_scalar_mx -!raddfB /=; apply: within1.
    apply: le_trans (_ : (y - x) ^+ 2 <= _); last by rewrite -[X in X <= _]mul1r ler_wpmul2r ?sqr_ge0.
    by rewrite expr2; apply/leRP; apply: exp_quad; apply: ge0.
- split=> t ht.
  + rewrite (mint_ext (G := fun s => (Rmult (Rplus R1 (Rminus t s)) (exp (Ropp s)))%:M)).
      by rewrite mint1 wit_int1 /wD raddfN opprK.
    by move=> s; rewrite -scalar_mxM.
  + rewrite (mint_ext (G := fun s => (Rmult (Ropp R1) (exp (Ropp s)))%:M)).
      rewrite mint1 wit_int2 /wB addr0 mul1mx /wDd -raddfD /=; congr (_%:M).
      by rewrite -[RHS]/(exp (- t) - 1 + 1) subrK.
    by move=> s; rewrite -scalar_mxM.
Qed.

(** On this example the errors of the two methods of the second kind are bounded for every step. *)
Example C79_example_rect : exists2 C : R, 0 <= C & forall dt N, 0 < dt -> (0 < N)%N -> N.-1%:R * dt <= 1 ->
    exists2 ker, compute_kernel dt N (Corrs (samples dt N wB) (samples dt N wD) (samples dt N wDd) (Some (samples dt N wBd)))
        MSecondRect None = Ok (mkseq (fun i => i%:R * dt) N, ker) &
      size ker = N /\ forall i, (i < N)%N -> within (C * dt) (ker`_i - (exp (- (i%:R * dt)))%:M).
Proof.
have [u _ [hB _] [hK _] [_ eq]] := C79_example.
by apply: (C79_second_rect (M := 2) wD _ u hB hK _ eq); rewrite ?ler0n ?ler01.
Qed.

Example C79_example_trapz : exists C, exists2 dt1 : R, 0 < dt1 & 0 <= C /\ forall dt N, 0 < dt <= dt1 -> (0 < N)%N -> N.-1%:R * dt <= 1 ->
    exists2 ker, compute_kernel dt N (Corrs (samples dt N wB) (samples dt N wD) (samples dt N wDd) (Some (samples dt N wBd)))
        MSecondTrapz None = Ok (mkseq (fun i => i%:R * dt) N, ker) &
      size ker = N /\ forall i, (i < N)%N -> within (C * dt ^+ 2) (ker`_i - (exp (- (i%:R * dt)))%:M).
Proof.
have [u _ [hB dB] [hK dK] [_ eq]] := C79_example.
by apply: (C79_second_trapz (M := 2) wD _ u hB hK _ dB dK eq); rewrite ?ler0n ?ler01.
Qed.
