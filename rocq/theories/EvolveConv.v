(** * Convergence of the evolution of correlations. *)
From Coq Require Import Reals Lra.
From Coquelicot Require Import Coquelicot.
From mathcomp Require Import all_ssreflect all_algebra zify.
From Verif Require Import Base RealsMC Quadrature FKernel MemorySpec Gfpe GfpeProofs FKernelProofs EvolveProofs.
From Verif Require Import Tactics Convergence ConvergenceProofs ConvergenceInt ConvergenceMain ConvergenceMain2 ConvergenceMain3 StabilityProofs.
Set Implicit Arguments.
Unset Strict Implicit.
Unset Printing Implicit Defensive.
Import Order.TTheory GRing.Theory Num.Theory.
Local Open Scope ring_scope.
Bind Scope ring_scope with Rdefinitions.R.

(** ** Accumulation of local errors, one implicit term *)
Section Accumulate.
Variables (F : realFieldType) (p N len : nat) (dt a b Z : F) (e : nat -> 'M[F]_(p, N)).
Hypotheses (dt0 : 0 <= dt) (a0 : 0 <= a) (b0 : 0 <= b) (Z0 : 0 <= Z) (small : a * dt <= 2^-1).
Let c : F := 2 * (a + b).
Hypothesis e0 : e 0%N = 0.
Hypothesis step : forall i u w, (0 < i < len)%N -> 0 <= u -> u <= w ->
  (forall j, (j < i)%N -> within u (e j)) -> (forall j, (j <= i)%N -> within w (e j)) ->
  within (u + dt * (b * u + a * w) + Z * dt ^+ 2) (e i).

Add Field RF : (mc_field_theory F).
Local Ltac rng := fold_ring (Num.RealField.fieldType F); ring.

Lemma local_split (m n t l h : F) :
  (m + n * (m * m) + (t * l + n * (m * m))) * h ^+ 2 =
  m * h ^+ 2 + h * (n * (m * h * m)) + h * (t * l * h + h * (n * (m * m))).
Proof using Type. rng. Qed.

Lemma accumulate_step u y : 0 <= u -> 0 <= y -> y <= u + dt * (b * u + a * y) + Z * dt ^+ 2 ->
  y <= (1 + c * dt) * u + 2 * Z * dt ^+ 2.
Proof using dt0 a0 b0 Z0 small.
move=> u0 y0 h; set x := a * dt; set v := b * dt; set z := Z * dt ^+ 2 in h *.
have x0 : 0 <= x by rewrite mulr_ge0.
have v0 : 0 <= v by rewrite mulr_ge0.
have z0 : 0 <= z by rewrite mulr_ge0 ?exprn_ge0.
have x1 : 0 <= 1 - 2 * x.
  rewrite subr_ge0 -ler_pdivl_mull ?ltr0n // mulr1; exact: small.
have px : 0 < 1 - x.
  rewrite subr_gt0; apply: le_lt_trans small _; rewrite invf_lt1 ?ltr0n // ltr1n //.
rewrite -(ler_pmul2l px).
have -> : (1 - x) * ((1 + c * dt) * u + 2 * Z * dt ^+ 2) =
   ((1 + v) * u + z) + (1 - 2 * x) * ((x + v) * u + z).
  by rewrite /x /v /z /c; rng.
apply: le_trans (_ : (1 + v) * u + z <= _); last first.
  by rewrite ler_addl mulr_ge0 // addr_ge0 // mulr_ge0 // addr_ge0.
rewrite mulrBl mul1r ler_subl_addr; apply: le_trans h _.
rewrite le_eqVlt; apply/orP; left; apply/eqP; rewrite /x /v; rng.
Qed.

Lemma accumulate i : (i < len)%N -> forall j, (j <= i)%N -> within (2 * Z * dt ^+ 2 * (i%:R * (1 + c * dt) ^+ i)) (e j).
Proof using dt0 a0 b0 Z0 small e0 step.
have c0 : 0 <= c * dt by rewrite !mulr_ge0 ?ler0n ?addr_ge0.
have z0 : 0 <= 2 * Z * dt ^+ 2 by rewrite !mulr_ge0 ?ler0n ?exprn_ge0.
have g1 n : 1 <= (1 + c * dt) ^+ n by apply: exprn_ege1; rewrite ler_addl.
elim: i => [|i IH] li j lj.
  by move: lj; rewrite leqn0 => /eqP ->; rewrite e0; apply: within0; rewrite mul0r mulr0.
have {}IH := IH (ltnW li).
set u := 2 * Z * dt ^+ 2 * (i%:R * _) in IH; set U := 2 * Z * dt ^+ 2 * (i.+1%:R * _).
have u0 : 0 <= u by rewrite !mulr_ge0 ?ler0n ?exprn_ge0 ?addr_ge0 ?ler01.
have uU : (1 + c * dt) * u + 2 * Z * dt ^+ 2 <= U.
  have -> : (1 + c * dt) * u = 2 * Z * dt ^+ 2 * (i%:R * (1 + c * dt) ^+ i.+1).
    by rewrite /u mulrCA; congr (_ * _); rewrite mulrCA -exprS.
  by rewrite -[X in _ + X]mulr1 -mulrDr /U ler_wpmul2l // mulrSr mulrDl mul1r ler_add2l.
have lu : u <= U.
  apply: le_trans uU; rewrite mulrDl mul1r -addrA ler_addl addr_ge0 // mulr_ge0 //.
move: lj; rewrite leq_eqVlt ltnS => /predU1P[->|lj]; last by apply: within_le (IH j lj).
move=> s t; have [p' [q' mx]] := within_max (e i.+1) s t.
apply: le_trans (mx s t) _; set y := `|e i.+1 p' q'| in mx *.
have y0 : 0 <= y := normr_ge0 _.
case: (leP y u) => [yu|/ltW uy]; first exact: le_trans lu.
apply: le_trans uU; apply: accumulate_step => //.
have h1 k : (k < i.+1)%N -> within u (e k) by rewrite ltnS; exact: IH.
have h2 k : (k <= i.+1)%N -> within y (e k).
  by rewrite leq_eqVlt => /predU1P[->|lk] //; apply: within_le uy _; apply: h1.
exact: (@step i.+1 u y li u0 uy h1 h2 p' q').
Qed.
End Accumulate.

(** ** The two quadratures of the memory over [n] panels (C17) *)
Section Quad.
Variables (F : realFieldType) (p N : nat) (dt : F).
Hypothesis dt0 : 0 <= dt.
Definition mem_quad (mt : evolve_method) (n : nat) (f : nat -> 'M[F]_(p, N)) : 'M[F]_(p, N) :=
  if mt is ERect then rect_rule dt f (maxn n.-1 1) else trapz_rule dt f n - (2^-1 * dt) *: f n.

Lemma mem_quad_lin mt n f g h : (0 < n)%N -> (forall j, (j <= n)%N -> f j = g j - h j) ->
  mem_quad mt n f = mem_quad mt n g - mem_quad mt n h.
Proof.
move=> n0 E; have t : trapz_rule dt f n - (2^-1 * dt) *: f n =
  trapz_rule dt g n - (2^-1 * dt) *: g n - (trapz_rule dt h n - (2^-1 * dt) *: h n).
  rewrite (@trapz_lin _ _ _ dt f g h n E) E // scalerBr.
  set x := trapz_rule _ _ _; set y := trapz_rule _ _ _; set z := _ *: _; set w := _ *: _.
  by abel.
case: mt => //=; apply: (@rect_lin _ _ _ dt f g h) => j lj; apply: E; lia.
Qed.

Lemma mem_quad_le mt L n (e : F) f : (0 < n <= L)%N -> 0 <= e ->
  (forall j, (j <= n)%N -> within e (f j)) -> within (2 * (L%:R * dt * e)) (mem_quad mt n f).
Proof.
move=> /andP[n0 nL] e0 h.
have l0 : 0 <= L%:R * dt * e by rewrite !mulr_ge0 ?ler0n.
have t : within (2 * (L%:R * dt * e)) (trapz_rule dt f n - (2^-1 * dt) *: f n).
  have -> : 2 * (L%:R * dt * e) = L%:R * dt * e + L%:R * dt * e by rewrite [LHS]mulrDl mul1r.
  apply: withinB; first exact: trapz_le.
  apply: within_le (withinZp _ (h n _)) => //; last by rewrite mulr_ge0 ?invr_ge0 ?ler0n.
  rewrite ler_wpmul2r // ler_wpmul2r //; apply: le_trans (_ : 1 <= _); last by rewrite ler1n; lia.
  by rewrite invf_le1 ?ltr0n // ler1n.
case: mt => //=; apply: within_le (_ : L%:R * dt * e <= _) _.
  by rewrite ler_pemull // ler1n.
apply: rect_le => // [|j lj]; first by lia.
by apply: h; lia.
Qed.

Lemma mem_quad_near mt n (e : F) f : (0 < n)%N -> 0 <= e ->
  (forall j, (j <= n)%N -> within e (f j)) -> within (dt * e) (rect_rule dt f n - mem_quad mt n f).
Proof.
move=> n0 e0 h.
have t : within (dt * e) (rect_rule dt f n - (trapz_rule dt f n - (2^-1 * dt) *: f n)).
  rewrite trapz_ruleE // addrK /rect_rule -(big_mkord xpredT f) big_ltn // scalerDr.
  set x := dt *: \sum_(1 <= j < n) f j.
  have -> : dt *: f 0%N + x - ((2^-1 * dt) *: f 0%N + x) = (dt - 2^-1 * dt) *: f 0%N.
    by rewrite scalerBl opprD addrACA subrr addr0.
  have -> : dt - 2^-1 * dt = 2^-1 * dt.
    rewrite -{1}[dt]mul1r -mulrBl; congr (_ * _).
    have n2 : (2 : F) != 0 by rewrite pnatr_eq0.
    by apply: (mulfI n2); rewrite mulrBr mulr1 divff // addrK.
  apply: within_le (withinZp _ (h 0%N _)) => //; last by rewrite mulr_ge0 ?invr_ge0 ?ler0n.
  rewrite ler_wpmul2r // -[X in _ <= X]mul1r ler_wpmul2r // invf_le1 ?ltr0n // ler1n //.
case: mt => //=; case: n n0 h {t} => // -[|n] _ h.
  by rewrite maxnE /= subrr; apply: within0; rewrite mulr_ge0.
rewrite /= (maxn_idPl _) // /rect_rule [\sum_(j < n.+2) _]big_ord_recr /= scalerDr addrAC subrr add0r.
by apply: withinZp => //; apply: h.
Qed.
End Quad.

(** ** Runs *)
Lemma evolve_runs (F : realFieldType) N (dt : F) (G0 : 'M[F]_N) len mt (f : 'M[F]_N) (K : seq 'M[F]_N) :
  mt = ERect \/ mt = ETrapz -> (0 < len)%N -> (1 < size K)%N ->
  1%:M + dt ^+ 2 *: K`_0 \in unitmx -> 1%:M + (2^-1 * dt ^+ 2) *: K`_0 \in unitmx ->
  exists2 G, evolve_volterra dt G0 len mt None f K = Ok (mkseq (fun i => i%:R * dt) len, G) &
    [/\ size G = len, G`_0 = G0 & forall i, (0 < i < len)%N ->
      G`_i - G`_i.-1 = dt *: (G`_i.-1 *m f - mem_quad dt mt (minn i (size K).-1) (mem_integrand G K i))].
Proof.
move=> hm l0 K1 u u'; have K0 := ltnW K1.
case: hm => ->.
  have [G E _] := ide_rect_run G0 f l0 K0 u.
  have E' : evolve_volterra dt G0 len ERect None f K = Ok (mkseq (fun i => i%:R * dt) len, G).
    by rewrite /evolve_volterra eqxx /= take_size E.
  exists G => //; by have [_ [_ s g S]] := (model_rect _ _ _ _ _ _ _ _).1 E'.
have [G E _] := ide_trapz_run G0 f l0 K0 u'.
have E' : evolve_volterra dt G0 len ETrapz None f K = Ok (mkseq (fun i => i%:R * dt) len, G).
  by rewrite /evolve_volterra eqxx /= take_size E.
exists G => //; by have [_ [_ s g S]] := (@model_trapz _ _ _ _ _ _ None _ _ _ _ K1).1 E'.
Qed.

Local Notation R := Rdefinitions.R.

(** Right-hand side of [X'(t) = X(t) F - int_0^min(t, tau) X(t - s) K(s) ds]. *)
Definition ide_rhs N (F : 'M[R]_N) (K : R -> 'M[R]_N) (tau : R) (X : R -> 'M[R]_N) (t : R) : 'M[R]_N :=
  X t *m F - mint (fun s => X (t - s) *m K s) 0 (Num.min t tau).

Section Main.
Variables (N : nat) (T M tau : R) (F : 'M[R]_N) (K X : R -> 'M[R]_N).
Hypotheses (T0 : 0 <= T) (M0 : 0 <= M) (hF : within M F) (hX : lipschitz M T X) (hK : lipschitz M T K).
Hypothesis ide : derivative M T X (ide_rhs F K tau X).

Let Z : R := M + N%:R * (M * M) + (T * LC N M + N%:R * (M * M)).

Section Step.
Variables (dt : R) (len q : nat) (mt : evolve_method).
Hypotheses (dt0 : 0 < dt) (le : len.-1%:R * dt <= T) (q1 : (1 < q)%N) (qt : q.-1%:R * dt = tau).
Let x (i : nat) : 'M[R]_N := X (i%:R * dt).
Let f (i j : nat) : 'M[R]_N := x (i - j) *m (samples dt q K)`_j.

Lemma window_err i : (0 < i < len)%N ->
  within (T * LC N M * dt) (mint (fun s => X (i%:R * dt - s) *m K s) 0 (Num.min (i%:R * dt) tau) -
    rect_rule dt (f i) (minn i q.-1)).
Proof.
move=> /andP[i0 li]; set n := minn i q.-1.
have /andP[t0 tT] := grid dt0 le li.
have -> : Num.min (i%:R * dt) tau = n%:R * dt.
  rewrite -qt /n; case: (leqP i q.-1) => h.
    by rewrite min_l // ler_wpmul2r ?(ltW dt0) // ler_nat.
  by rewrite min_r // ler_wpmul2r ?(ltW dt0) // ler_nat ltnW.
have ni : n%:R * dt <= i%:R * dt by rewrite ler_wpmul2r ?(ltW dt0) // ler_nat geq_minl.
have H := mlip_sub (lexx 0) ni (conv_lip hX hK tT).
have -> : rect_rule dt (f i) n = rect_rule dt (fun j => X (i%:R * dt - j%:R * dt) *m K (j%:R * dt)) n.
  rewrite /rect_rule; congr (_ *: _); apply: eq_bigr => -[j lj] _ /=; rewrite /f /x.
  have ln : (n <= i)%N by exact: geq_minl.
  have lq : (n <= q.-1)%N by exact: geq_minr.
  rewrite nat_dt ?nth_samples //; first by move: q1 lj lq; clear; lia.
  by move: lj ln; clear; lia.
have h := @rect_err _ _ (LC N M) dt (LC N M * dt) n _ (ltW dt0) H.
apply: within_le (h _).
  have -> : n%:R * (dt * (LC N M * dt)) = (n%:R * dt) * LC N M * dt by rewrite -!mulrA.
  by rewrite ler_wpmul2r ?(ltW dt0) // ler_wpmul2r ?LC_ge0 // (le_trans ni).
move=> j s lj /andP[h1 h2].
have l2 : j.+1%:R * dt <= n%:R * dt by rewrite ler_wpmul2r ?(ltW dt0) // ler_nat.
have l0 : 0 <= j%:R * dt by rewrite mulr_ge0 ?ler0n ?(ltW dt0).
apply: within_le (H _ _ _ _).
- apply: ler_wpmul2l; first exact: LC_ge0.
  rewrite ger0_norm ?subr_ge0 //; apply: le_trans (_ : j.+1%:R * dt - j%:R * dt <= _).
    by rewrite ler_add2r.
  by rewrite -mulrBl -natrB // subSnn mul1r.
- by rewrite (le_trans l0 h1) (le_trans h2 l2).
- by rewrite l0 (le_trans h1) // (le_trans h2).
Qed.

Lemma f_le i j : (i < len)%N -> (j <= minn i q.-1)%N -> within (N%:R * (M * M)) (f i j).
Proof.
move=> li lj; have ji : (j <= i)%N by move: lj; clear; lia.
have jq : (j < q)%N by move: lj q1; clear; lia.
apply: withinM; first by apply: (proj1 hX); apply: grid dt0 le _; move: li; clear; lia.
by rewrite nth_samples //; apply: (proj1 hK); apply: grid dt0 le _; move: li ji; clear; lia.
Qed.

Lemma residual_err i : (0 < i < len)%N ->
  within (Z * dt ^+ 2) (x i - x i.-1 - dt *: (x i.-1 *m F - mem_quad dt mt (minn i q.-1) (f i))).
Proof.
move=> hi; have /andP[i0 li] := hi.
have n0 : (0 < minn i q.-1)%N by move: i0 q1; clear; lia.
have Q0 : 0 <= N%:R * (M * M) by rewrite !mulr_ge0 ?ler0n.
have gi := grid dt0 le li.
have lp : (i.-1 < len)%N by move: li; clear; lia.
have gp := grid dt0 le lp.
have st : i.-1%:R * dt - i%:R * dt = - dt.
  by rewrite -{2}(prednK i0) mulrSr mulrDl mul1r opprD addrA subrr add0r.
have h1 := ide gi gp; rewrite st sqrrN /ide_rhs in h1.
set I := mint _ _ _ in h1; set q' := mem_quad _ _ _ _.
have h2 : within (T * LC N M * dt + dt * (N%:R * (M * M))) (I - q').
  have -> : I - q' = (I - rect_rule dt (f i) (minn i q.-1)) + (rect_rule dt (f i) (minn i q.-1) - q').
    by rewrite subrKA.
  apply: withinD; first exact: window_err.
  by apply: mem_quad_near => //; [exact: ltW | move=> j lj; apply: f_le].
have h3 : within (N%:R * ((M * dt) * M)) ((x i - x i.-1) *m F).
  apply: withinM => //; have := proj2 hX _ _ gi gp.
  by rewrite -opprB st opprK ger0_norm ?(ltW dt0).
have -> : x i - x i.-1 - dt *: (x i.-1 *m F - q') =
  - (x i.-1 - x i - - dt *: (x i *m F - I)) + dt *: ((x i - x i.-1) *m F) - dt *: (I - q').
  rewrite mulmxBl !scalerBr !scaleNr; set a := dt *: _; set b := dt *: _; set c := dt *: _; set g := dt *: _.
  by abel.
have -> : Z * dt ^+ 2 = M * dt ^+ 2 + dt * (N%:R * (M * dt * M)) + dt * (T * LC N M * dt + dt * (N%:R * (M * M))).
  exact: local_split.
apply: withinB; last by apply: withinZp => //; exact: ltW.
apply: withinD; last by apply: withinZp => //; exact: ltW.
by apply: withinN.
Qed.
End Step.

Let a : R := 2 * (T * (N%:R * M)).
Let b : R := N%:R * M.
Let c : R := 2 * (a + b).

Lemma evolve_converges mt : mt = ERect \/ mt = ETrapz ->
  exists C, exists2 dt1, 0 < dt1 & 0 <= C /\ forall dt len q,
    0 < dt <= dt1 -> (0 < len)%N -> (1 < q)%N -> len.-1%:R * dt <= T -> q.-1%:R * dt = tau ->
    exists2 G, evolve_volterra dt (X 0) len mt None F (samples dt q K) = Ok (mkseq (fun i => i%:R * dt) len, G) &
      size G = len /\ forall i, (i < len)%N -> within (C * dt) (G`_i - X (i%:R * dt)).
Proof.
move=> hm.
have a0 : 0 <= a by rewrite !mulr_ge0 ?ler0n.
have b0 : 0 <= b by rewrite !mulr_ge0 ?ler0n.
have c0 : 0 <= c by rewrite mulr_ge0 ?ler0n ?addr_ge0.
have Z0 : 0 <= Z.
  by rewrite /Z addr_ge0 // addr_ge0 // ?mulr_ge0 ?ler0n ?LC_ge0 //.
have [s1 p1 sm1] := small_step a0.
have [s2 p2 sm2] := small_step b0.
pose dt1 := Num.min (Num.min s1 s2) 1.
have ex0 : 0 <= exp (c * T) by apply/leRP/Rlt_le/exp_pos.
exists (2 * Z * (T * exp (c * T))), dt1; first by rewrite !lt_minr p1 p2 ltr01.
split; first by rewrite !mulr_ge0 ?ler0n.
move=> dt len q /andP[dt0]; rewrite !le_minr => /andP[/andP[d1 d2] d3] l0 q1 le qt.
have sa : a * dt <= 2^-1 by apply: sm1; rewrite dt0.
have sb : b * dt <= 2^-1 by apply: sm2; rewrite dt0.
have c1 : coer 1 (1%:M : 'M[R]_N) by move=> m Y e; rewrite mul1mx mul1r.
have hu w : 0 <= w <= 1 -> 1%:M + (w * dt ^+ 2) *: (samples dt q K)`_0 \in unitmx.
  move=> /andP[w0 w1]; apply: (@coer_unit _ _ (2 * 1)); apply: (coer_near (e := dt * M) ler01 c1).
    rewrite addrAC subrr add0r nth_samples ?mul0r; last exact: ltnW.
    apply: within_le (withinZp _ (proj1 hK 0 _)); last by rewrite lexx.
      rewrite ler_wpmul2r // expr2 mulrA -[X in _ <= X]mul1r ler_wpmul2r ?(ltW dt0) //.
      by rewrite -[X in _ <= X]mul1r; apply: ler_pmul => //; exact: ltW.
    by rewrite mulr_ge0 ?exprn_ge0 ?(ltW dt0).
  by rewrite mul1r [dt * M]mulrC mulrA.
have u1 : 1%:M + dt ^+ 2 *: (samples dt q K)`_0 \in unitmx by rewrite -[dt ^+ 2]mul1r; apply: hu; rewrite ler01 lexx.
have u2 : 1%:M + (2^-1 * dt ^+ 2) *: (samples dt q K)`_0 \in unitmx.
  by apply: hu; rewrite invr_ge0 ler0n invf_le1 ?ltr0n // ler1n.
have s2' : (1 < size (samples dt q K))%N by rewrite size_samples.
have [G E [sG G0 S]] := evolve_runs (X 0) F hm l0 s2' u1 u2.
exists G => //; split=> // i li.
rewrite size_samples in S.
pose e j := G`_j - X (j%:R * dt).
have st j u w : (0 < j < len)%N -> 0 <= u -> u <= w ->
    (forall k, (k < j)%N -> within u (e k)) -> (forall k, (k <= j)%N -> within w (e k)) ->
    within (u + dt * (b * u + a * w) + Z * dt ^+ 2) (e j).
  move=> hj u0 uw hu1 hw; have /andP[j0 lj] := hj.
  have n0 : (0 < minn j q.-1)%N by move: j0 q1; clear; lia.
  have rs := residual_err mt dt0 le q1 qt hj; rewrite /= in rs.
  set n := minn j q.-1 in n0 rs *.
  have Sj := S j hj; rewrite -/n in Sj.
  set qx := mem_quad _ _ _ _ in rs; set qg := mem_quad _ _ _ _ in Sj.
  have qe : within (a * w) (qg - qx).
    rewrite /qg /qx -(@mem_quad_lin _ _ _ dt (ltW dt0) mt n (fun k => e (j - k)%N *m (samples dt q K)`_k)) //; last first.
      by move=> k _; rewrite /e mulmxBl.
    apply: within_le (mem_quad_le (ltW dt0) mt (L := len.-1) (e := N%:R * (w * M)) _ _ _).
    - rewrite /a -[X in _ <= X]mulrA; apply: ler_wpmul2l; first by rewrite ler0n.
      have -> : T * (N%:R * M) * w = T * (N%:R * (w * M)) by rewrite -!mulrA [M * w]mulrC.
      by apply: ler_wpmul2r => //; rewrite !mulr_ge0 ?ler0n // (le_trans u0).
    - by rewrite n0 /= /n; move: lj; clear; lia.
    - by rewrite !mulr_ge0 ?ler0n // (le_trans u0).
    - move=> k lk; apply: withinM; first by apply: hw; clear; lia.
      have kq : (k < q)%N by move: lk q1; rewrite /n; clear; lia.
      rewrite nth_samples //; apply: (proj1 hK); apply: grid dt0 le _; move: lk lj; rewrite /n; clear; lia.
  have -> : e j = e j.-1 + dt *: (e j.-1 *m F - (qg - qx)) -
     (X (j%:R * dt) - X (j.-1%:R * dt) - dt *: (X (j.-1%:R * dt) *m F - qx)).
    rewrite {1}/e; have -> : G`_j = G`_j.-1 + dt *: (G`_j.-1 *m F - qg) by rewrite -Sj addrC subrK.
    rewrite /e mulmxBl !scalerBr; set g := _ *: _; set h := _ *: _; set k := _ *: _; set l := _ *: _.
    by abel.
  have ej : within u (e j.-1) by apply: hu1; move: j0; clear; lia.
  apply: withinB => //; apply: withinD => //; apply: withinZp; first exact: ltW.
  apply: withinB => //; have -> : b * u = N%:R * (u * M) by rewrite /b -mulrA [M * u]mulrC.
  exact: withinM.
have ac := accumulate (ltW dt0) a0 b0 Z0 sa _ st li (leqnn i).
apply: within_le (ac _); last by rewrite /e G0 mul0r subrr.
have -> : 2 * Z * (T * exp (c * T)) * dt = 2 * Z * dt * (T * exp (c * T)) by rewrite mulrAC.
have -> : 2 * Z * dt ^+ 2 * (i%:R * (1 + c * dt) ^+ i) = 2 * Z * dt * (i%:R * dt * (1 + c * dt) ^+ i).
  by rewrite expr2 -!mulrA; do 3!congr (_ * _); rewrite mulrCA.
apply: ler_wpmul2l; first by rewrite !mulr_ge0 ?ler0n // ltW.
have /andP[g0 gT] := grid dt0 le li.
apply: ler_pmul => //; first by rewrite exprn_ge0 // addr_ge0 ?ler01 // mulr_ge0 // ltW.
by apply: pow_exp_T => //; exact: ltW.
Qed.
End Main.
