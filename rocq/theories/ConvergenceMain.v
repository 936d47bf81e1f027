(** * Quadrature rules against integrals of matrices; inversion against the continuous equation. *)
From Coq Require Import Reals Lra.
From Coquelicot Require Import Coquelicot.
From mathcomp Require Import all_ssreflect all_algebra zify.
From Verif Require Import Base RealsMC Quadrature FKernelSpec KernelSpec FKernelProofs FKernelProofs2.
From Verif Require Import Tactics Convergence ConvergenceProofs ConvergenceInt.
Set Implicit Arguments.
Unset Strict Implicit.
Unset Printing Implicit Defensive.
Import Order.TTheory GRing.Theory Num.Theory.
Local Open Scope ring_scope.
Bind Scope ring_scope with Rdefinitions.R.
Local Notation R := Rdefinitions.R.

Lemma leRP (x y : R) : reflect (Rle x y) (x <= y).
Proof. exact: RlebP. Qed.
Lemma ltRP (x y : R) : reflect (Rlt x y) (x < y).
Proof. exact: RltbP. Qed.

Lemma two_R : (2 : R) = IZR 2. Proof. by []. Qed.

Section Mint.
Variables (a b : nat).
Implicit Types (F G : R -> 'M[R]_(a, b)).

(** Lipschitz on [[x, y]]. *)
Definition mlip (L x y : R) F :=
  forall s t, x <= s <= y -> x <= t <= y -> within (L * `|s - t|) (F s - F t).

Lemma mlip_sub L x y x' y' F : x <= x' -> y' <= y -> mlip L x y F -> mlip L x' y' F.
Proof.
move=> hx hy H s t /andP[h1 h2] /andP[h3 h4]; apply: H.
  by rewrite (le_trans hx h1) (le_trans h2 hy).
by rewrite (le_trans hx h3) (le_trans h4 hy).
Qed.

Lemma mlip_ex L x y F i j : x <= y -> mlip L x y F -> ex_RInt (fun s => F s i j) x y.
Proof.
move=> /leRP xy H; apply: (@lip_ex_RInt _ _ _ L) => // s t [/leRP h1 /leRP h2] [/leRP h3 /leRP h4].
have := H s t; rewrite h1 h2 h3 h4 => /(_ isT isT i j); rewrite !mxE => /leRP; exact.
Qed.

Lemma mint_chasles L x y z F : x <= y -> y <= z -> mlip L x z F -> mint F x z = mint F x y + mint F y z.
Proof.
move=> xy yz H; apply/matrixP => i j; rewrite !mxE.
have e1 : ex_RInt (fun s => F s i j) x y by apply: (@mlip_ex L) => //; apply: mlip_sub H.
have e2 : ex_RInt (fun s => F s i j) y z by apply: (@mlip_ex L) => //; apply: mlip_sub H.
exact: esym (RInt_Chasles _ _ _ _ e1 e2).
Qed.

Lemma mint_point x F : mint F x x = 0.
Proof. by apply/matrixP => i j; rewrite !mxE RInt_point. Qed.

Lemma mint_const_err (L x y e : R) V F : x <= y -> mlip L x y F ->
  (forall s, x <= s <= y -> within e (F s - V)) -> within ((y - x) * e) (mint F x y - (y - x) *: V).
Proof.
move=> xy H near i j; rewrite !mxE.
have h := @panel_const (fun s => F s i j) x y (V i j) e (elimT (leRP _ _) xy) (mlip_ex i j xy H).
apply/leRP; apply: h => s [/leRP h1 /leRP h2].
by have := near s; rewrite h1 h2 => /(_ isT i j); rewrite !mxE => /leRP.
Qed.

Lemma mint_trapz_err (L Q x y : R) F (G : 'M[R]_(a, b)) : x <= y -> 0 <= Q -> mlip L x y F ->
  (forall s, x <= s <= y -> within (Q * (s - x) ^+ 2) (F s - F x - (s - x) *: G)) ->
  within (2 * Q * (y - x) ^+ 3) (mint F x y - (y - x) *: (2^-1 *: (F x + F y))).
Proof.
move=> xy Q0 H near i j; rewrite !mxE.
have h := @panel_trapz (fun s => F s i j) x y (G i j) Q (elimT (leRP _ _) xy) (elimT (leRP _ _) Q0) (mlip_ex i j xy H).
have e3 : (2 * Q * (y - x) ^+ 3 : R) = Rmult (Rmult (IZR 2) Q) (pow (Rminus y x) 3).
  by rewrite 3!exprS expr0; reflexivity.
have e2 : (2^-1 : R) = Rinv (IZR 2).
  rewrite /GRing.inv /= /Rinvx; case: eqP => // E.
  by exfalso; have {}E : IZR 2 = R0 := E; move: E; lra.
apply/leRP; rewrite e3 e2; apply: h => s [/leRP h1 /leRP h2].
have e : pow (Rminus s x) 2 = (s - x) ^+ 2 by rewrite /= Rmult_1_r expr2.
by rewrite e; have := near s; rewrite h1 h2 => /(_ isT i j); rewrite !mxE => /leRP.
Qed.

(** Panels of width [h]. *)
Lemma panels L (h e : R) n F (q : nat -> 'M[R]_(a, b)) : 0 <= h -> mlip L 0 (n%:R * h) F ->
  (forall j, (j < n)%N -> within e (mint F (j%:R * h) (j.+1%:R * h) - q j)) ->
  within (n%:R * e) (mint F 0 (n%:R * h) - \sum_(j < n) q j).
Proof.
move=> h0; elim: n => [|n IH] H near.
  by rewrite big_ord0 mul0r mul0r mint_point subr0; apply: within0.
have le : n%:R * h <= n.+1%:R * h by rewrite ler_wpmul2r // ler_nat.
rewrite (mint_chasles (y := n%:R * h) (L := L)) //; last by rewrite mulr_ge0 ?ler0n.
have -> : n.+1%:R * e = n%:R * e + e by rewrite -addn1 natrD mulrDl mul1r.
rewrite big_ord_recr /= opprD addrACA; apply: withinD.
  apply: IH => [|j lj]; last by apply: near; lia.
  exact: mlip_sub H.
exact: near.
Qed.

Lemma rect_err L (h e : R) n F : 0 <= h -> mlip L 0 (n%:R * h) F ->
  (forall j s, (j < n)%N -> j%:R * h <= s <= j.+1%:R * h -> within e (F s - F (j%:R * h))) ->
  within (n%:R * (h * e)) (mint F 0 (n%:R * h) - rect_rule h (fun j => F (j%:R * h)) n).
Proof.
move=> h0 H near; rewrite /rect_rule scaler_sumr.
apply: (panels (L := L) (q := fun j => h *: F (j%:R * h))) => // j lj.
have w : j.+1%:R * h - j%:R * h = h by rewrite -mulrBl -natrB // subSnn mul1r.
have l1 : j%:R * h <= j.+1%:R * h by rewrite ler_wpmul2r // ler_nat.
have l2 : j.+1%:R * h <= n%:R * h by rewrite ler_wpmul2r // ler_nat.
have l0 : 0 <= j%:R * h by rewrite mulr_ge0 ?ler0n.
have := @mint_const_err L _ _ e (F (j%:R * h)) F l1 (mlip_sub l0 l2 H); rewrite w; apply.
by move=> s hs; apply: near.
Qed.

Lemma trapz_err L Q (h : R) n F G : 0 <= h -> 0 <= Q -> mlip L 0 (n%:R * h) F ->
  (forall x y, 0 <= x <= n%:R * h -> 0 <= y <= n%:R * h ->
     within (Q * (y - x) ^+ 2) (F y - F x - (y - x) *: G x)) ->
  within (n%:R * (2 * Q * h ^+ 3)) (mint F 0 (n%:R * h) - trapz_rule h (fun j => F (j%:R * h)) n).
Proof.
move=> h0 Q0 H near; rewrite /trapz_rule scaler_sumr.
apply: (panels (L := L) (q := fun j => h *: (2^-1 *: (F (j%:R * h) + F (j.+1%:R * h))))) => // j lj.
have w : j.+1%:R * h - j%:R * h = h by rewrite -mulrBl -natrB // subSnn mul1r.
have l1 : j%:R * h <= j.+1%:R * h by rewrite ler_wpmul2r // ler_nat.
have l2 : j.+1%:R * h <= n%:R * h by rewrite ler_wpmul2r // ler_nat.
have l0 : 0 <= j%:R * h by rewrite mulr_ge0 ?ler0n.
have := @mint_trapz_err L Q _ _ F (G (j%:R * h)) l1 Q0 (mlip_sub l0 l2 H); rewrite w; apply.
move=> s /andP[h1 h2]; apply: near; first by rewrite l0 (le_trans l1).
by rewrite (le_trans l0) // (le_trans h2).
Qed.

End Mint.

(** ** Convolutions *)
Section Conv.
Variables (d m : nat) (T M : R) (B : R -> 'M[R]_d) (K : R -> 'M[R]_(d, m)).
Hypothesis M0 : 0 <= M.
Hypotheses (hB : lipschitz M T B) (hK : lipschitz M T K).

Lemma back t s : 0 <= s <= t -> t <= T -> 0 <= t - s <= T.
Proof.
move=> /andP[s0 st] tT; rewrite subr_ge0 st /=; apply: le_trans tT.
by rewrite ler_subl_addr ler_addl.
Qed.

Lemma front (t s : R) : 0 <= s <= t -> t <= T -> 0 <= s <= T.
Proof. by move=> /andP[-> st] tT; apply: le_trans tT. Qed.

Definition LC : R := d%:R * (M * M) + d%:R * (M * M).

Lemma LC_ge0 : 0 <= LC. Proof. by rewrite addr_ge0 ?mulr_ge0 ?ler0n. Qed.

Lemma conv_lip t : t <= T -> mlip LC 0 t (fun s => B (t - s) *m K s).
Proof.
move=> tT s u hs hu.
have -> : B (t - s) *m K s - B (t - u) *m K u = (B (t - s) - B (t - u)) *m K s + B (t - u) *m (K s - K u).
  by rewrite mulmxBl mulmxBr addrA subrK.
have -> : LC * `|s - u| = d%:R * ((M * `|s - u|) * M) + d%:R * (M * (M * `|s - u|)).
  by rewrite /LC mulrDl -!mulrA [`|_| * M]mulrC.
apply: withinD; apply: withinM.
- have -> : `|s - u| = `|(t - s) - (t - u)| by rewrite (_ : t - s - (t - u) = u - s) 1?distrC //; abel.
  by apply: (proj2 hB); apply: back.
- by apply: (proj1 hK); apply: front tT.
- by apply: (proj1 hB); apply: back.
- by apply: (proj2 hK); apply: front tT.
Qed.

(** The convolution has a derivative when its factors have one. *)
Lemma conv_derivative Bd Kd t : t <= T -> derivative M T B Bd -> derivative M T K Kd ->
  forall x y, 0 <= x <= t -> 0 <= y <= t ->
    within (3%:R * (d%:R * (M * M)) * (y - x) ^+ 2)
      (B (t - y) *m K y - B (t - x) *m K x - (y - x) *: (B (t - x) *m Kd x - Bd (t - x) *m K x)).
Proof.
move=> tT dB dK x y hx hy.
pose rB := B (t - y) - B (t - x) - ((t - y) - (t - x)) *: Bd (t - x).
pose rK := K y - K x - (y - x) *: Kd x.
have E1 : (t - y) - (t - x) = - (y - x) by abel.
have -> : B (t - y) *m K y - B (t - x) *m K x - (y - x) *: (B (t - x) *m Kd x - Bd (t - x) *m K x) =
  rB *m K x + B (t - x) *m rK + (B (t - y) - B (t - x)) *m (K y - K x).
  rewrite /rB /rK E1 scaleNr opprK !(mulmxBl, mulmxBr, mulmxDl) -scalemxAl -scalemxAr scalerBr.
  by abel.
have -> : 3%:R * (d%:R * (M * M)) * (y - x) ^+ 2 =
   d%:R * (M * (y - x) ^+ 2 * M) + d%:R * (M * (M * (y - x) ^+ 2)) + d%:R * ((M * `|y - x|) * (M * `|y - x|)).
  have e : `|y - x| * `|y - x| = (y - x) ^+ 2 by rewrite -normrM -expr2 ger0_norm // sqr_ge0.
  rewrite [M * `|_| * (M * _)]mulrACA e [M * _ * M]mulrAC.
  by rewrite -!mulrA; set w := d%:R * _; rewrite mulr_natl !mulrS mulr0n addr0 addrA.
have sq : ((t - y) - (t - x)) ^+ 2 = (y - x) ^+ 2 by rewrite E1 sqrrN.
apply: withinD; [apply: withinD|]; apply: withinM.
- by rewrite -sq; apply: dB; apply: back.
- by apply: (proj1 hK); apply: front tT.
- by apply: (proj1 hB); apply: back.
- by apply: dK; apply: front tT.
- have -> : `|y - x| = `|(t - y) - (t - x)| by rewrite E1 normrN.
  by apply: (proj2 hB); apply: back.
- by apply: (proj2 hK); apply: front tT.
Qed.

(** Second differences of a function with a derivative. *)
Lemma second_difference Bd x y h : derivative M T B Bd ->
  0 <= y <= x -> x <= y + h -> 0 <= h -> x + h <= T ->
  within (4%:R * M * h ^+ 2) ((B (x + h) - B x) - (B (y + h) - B y)).
Proof.
move=> dB /andP[y0 yx] xh h0 xT.
have x0 : 0 <= x := le_trans y0 yx.
have xT' : x <= T by apply: le_trans xT; rewrite ler_addl.
have yT : y + h <= T by apply: le_trans xT; rewrite ler_add2r.
have yT' : y <= T := le_trans yx xT'.
have hx := dB x (x + h); have hy := dB y (y + h).
have := hx; rewrite x0 xT' addr_ge0 // xT addrAC subrr add0r => /(_ isT isT) {}hx.
have := hy; rewrite y0 yT' addr_ge0 // yT addrAC subrr add0r => /(_ isT isT) {}hy.
have dd : within (2 * M * h ^+ 2) (h *: (Bd x - Bd y)).
  have [E|ne] := eqVneq x y.
    by rewrite E subrr scaler0; apply: within0; rewrite !mulr_ge0 ?exprn_ge0 ?ler0n.
  have p : 0 < x - y by rewrite subr_gt0 lt_neqAle eq_sym ne.
  have h1 := dB x y; have h2 := dB y x; rewrite x0 xT' y0 yT' in h1 h2.
  have {}h1 := h1 isT isT; have {}h2 := h2 isT isT.
  have h3 := withinD h1 h2.
  have E : B y - B x - (y - x) *: Bd x + (B x - B y - (x - y) *: Bd y) = (x - y) *: (Bd x - Bd y).
    have -> : (y - x) *: Bd x = - ((x - y) *: Bd x) by rewrite -scaleNr opprB.
    by rewrite scalerBr; abel.
  have sq : (y - x) ^+ 2 = (x - y) ^+ 2 by rewrite -opprB sqrrN.
  rewrite E sq in h3.
  have -> : h *: (Bd x - Bd y) = (h / (x - y)) *: ((x - y) *: (Bd x - Bd y)).
    by rewrite scalerA mulfVK ?gt_eqF.
  have := withinZp (divr_ge0 h0 (ltW p)) h3; apply: within_le.
  have -> : h / (x - y) * (M * (x - y) ^+ 2 + M * (x - y) ^+ 2) = 2 * M * (h * (x - y)).
    rewrite -mulrDl -mulr2n -[M *+ 2]mulr_natl mulrCA; congr (_ * _).
    by rewrite expr2 mulrA mulfVK ?gt_eqF.
  by apply: ler_wpmul2l; rewrite ?mulr_ge0 ?ler0n // expr2 ler_wpmul2l // ler_subl_addl.
have -> : (B (x + h) - B x) - (B (y + h) - B y) =
  (B (x + h) - B x - h *: Bd x) - (B (y + h) - B y - h *: Bd y) + h *: (Bd x - Bd y).
  by rewrite scalerBr; abel.
have -> : 4%:R * M * h ^+ 2 = M * h ^+ 2 + M * h ^+ 2 + 2 * M * h ^+ 2.
  rewrite -!mulrDl; congr (_ * _).
  by rewrite [4%:R](natrD _ 2 2) mulrDl; congr (_ + _); rewrite mulr_natl mulr2n.
by apply: withinD => //; apply: withinB.
Qed.

End Conv.
