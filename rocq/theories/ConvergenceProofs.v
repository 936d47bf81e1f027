(** * From residuals of a discrete equation to errors of its solution. *)
From mathcomp Require Import all_ssreflect all_algebra zify.
From Verif Require Import Base Quadrature FKernelSpec KernelSpec FKernelProofs Tactics Convergence.
Set Implicit Arguments.
Unset Strict Implicit.
Unset Printing Implicit Defensive.
Import Order.TTheory GRing.Theory Num.Theory.
Local Open Scope ring_scope.

Section Within.
Variable R : realFieldType.

Lemma within_le a b (e e' : R) (A : 'M_(a, b)) : e <= e' -> within e A -> within e' A.
Proof. by move=> l H i j; apply: le_trans l. Qed.

Lemma within0 a b (e : R) : 0 <= e -> within e (0 : 'M_(a, b)).
Proof. by move=> e0 i j; rewrite mxE normr0. Qed.

Lemma withinD a b (e f : R) (A B : 'M_(a, b)) : within e A -> within f B -> within (e + f) (A + B).
Proof. by move=> hA hB i j; rewrite mxE; apply: le_trans (ler_norm_add _ _) _; apply: ler_add. Qed.

Lemma withinN a b (e : R) (A : 'M_(a, b)) : within e A -> within e (- A).
Proof. by move=> h i j; rewrite mxE normrN. Qed.

Lemma withinB a b (e f : R) (A B : 'M_(a, b)) : within e A -> within f B -> within (e + f) (A - B).
Proof. by move=> hA hB; apply: withinD => //; apply: withinN. Qed.

Lemma withinZ a b (e x : R) (A : 'M_(a, b)) : within e A -> within (`|x| * e) (x *: A).
Proof. by move=> h i j; rewrite mxE normrM ler_wpmul2l. Qed.

Lemma withinZp a b (e x : R) (A : 'M_(a, b)) : 0 <= x -> within e A -> within (x * e) (x *: A).
Proof. by move=> x0 h; rewrite -[x in x * e](ger0_norm x0); apply: withinZ. Qed.

Lemma within_sum a b n (e : nat -> R) (A : nat -> 'M_(a, b)) :
  (forall j, (j < n)%N -> within (e j) (A j)) -> within (\sum_(j < n) e j) (\sum_(j < n) A j).
Proof.
elim: n => [|n IH] H; first by rewrite !big_ord0; apply: within0.
by rewrite !big_ord_recr /=; apply: withinD; [apply: IH => j lj; apply: H; lia | apply: H].
Qed.

Lemma withinM a b c (e f : R) (A : 'M_(a, b)) (B : 'M_(b, c)) :
  within e A -> within f B -> within (b%:R * (e * f)) (A *m B).
Proof.
move=> hA hB i j; rewrite mxE; apply: le_trans (ler_norm_sum _ _ _) _.
apply: le_trans (_ : \sum_(k < b) e * f <= _); last by rewrite sumr_const card_ord -mulr_natl.
by apply: ler_sum => k _; rewrite normrM; apply: ler_pmul.
Qed.

Lemma within_ge0 a b (e : R) (A : 'M_(a.+1, b.+1)) : within e A -> 0 <= e.
Proof. by move=> h; apply: le_trans (h ord0 ord0). Qed.

(** The largest entry. *)
Lemma within_max a b (A : 'M[R]_(a, b)) (p : 'I_a) (q : 'I_b) :
  exists i j, within `|A i j| A.
Proof.
have [[i j] _ H] := @arg_maxP _ _ _ (p, q) xpredT (fun x : 'I_a * 'I_b => `|A x.1 x.2|) isT.
by exists i, j => i' j'; apply: (H (i', j')).
Qed.

(** [A] is invertible, with an inverse of size at most [c]. *)
Definition coer d (c : R) (A : 'M_d) :=
  forall m (X : 'M_(d, m)) e, within e (A *m X) -> within (c * e) X.

Lemma coer_unit d (c : R) (A : 'M_d) : coer c A -> A \in unitmx.
Proof.
move=> H; rewrite unitmxE unitfE -det_tr; apply/det0P => -[v v0 E].
have /H h : within 0 (A *m v^T) by rewrite -[A *m _]trmxK trmx_mul trmxK E trmx0; apply: within0.
case/eqP: v0; apply/matrixP => i j; have := h j i; rewrite mulr0 mxE normr_le0 => /eqP ->.
by rewrite mxE.
Qed.

Lemma unit_coer d (A : 'M[R]_d) : A \in unitmx -> exists2 c, 0 < c & coer c A.
Proof.
case: d A => [A _|d A u]; first by exists 1 => // m X e _ [].
have [i [j H]] := within_max (invmx A) ord0 ord0.
exists (d.+1%:R * (`|invmx A i j| + 1)).
  by rewrite mulr_gt0 ?ltr0n // ltr_spaddr.
move=> m X e h; rewrite -[X](mulKmx u) -mulrA; apply: withinM => //.
by apply: within_le H; rewrite ler_addl.
Qed.

Lemma coer_le d (c c' : R) (A : 'M_d) : c <= c' -> coer c A -> coer c' A.
Proof.
move=> l H m X e h i j; apply: le_trans (H _ _ _ h i j) _.
apply: ler_wpmul2r => //; by apply: le_trans (h i j).
Qed.

(** A small change of the matrix. *)
Lemma coer_near d (c e : R) (A B : 'M_d) : 0 <= c ->
  coer c A -> within e (B - A) -> c * (d%:R * e) <= 2^-1 -> coer (2 * c) B.
Proof.
move=> c0 H near small m X f h i j.
have [p [q M]] := within_max X i j; apply: le_trans (M i j) _.
set y := `|X p q| in M *.
have y0 : 0 <= y := normr_ge0 _.
have h' : within (f + d%:R * (e * y)) (A *m X).
  have -> : A *m X = B *m X - (B - A) *m X by rewrite mulmxBl opprB addrC subrK.
  by apply: withinB => //; apply: withinM.
have := H _ _ _ h' p q; rewrite -/y mulrDr mulrA mulrA => l.
have l2 : y <= c * f + 2^-1 * y.
  apply: le_trans l _; rewrite ler_add2l ler_wpmul2r // -mulrA //.
have : y - 2^-1 * y <= c * f by rewrite ler_subl_addr.
have -> : y - 2^-1 * y = 2^-1 * y.
  by rewrite -{1}[y]mul1r -mulrBl; congr (_ * _); rewrite {1}[1](splitr 1) mul1r addrK.
by rewrite mulrC ler_pdivr_mulr ?ltr0n // mulrC mulrA.
Qed.

(** Discrete Gronwall: errors driven by the sum of the previous ones. *)
Lemma gronwall a b N (q r : R) (e : nat -> 'M_(a, b)) :
  (forall i u, (i < N)%N -> (forall j, (j < i)%N -> 0 <= u j) ->
     (forall j, (j < i)%N -> within (u j) (e j)) ->
     within (q * (\sum_(j < i) u j) + r) (e i)) ->
  0 <= q -> 0 <= r -> forall i, (i < N)%N -> within (r * (1 + q) ^+ i) (e i).
Proof.
move=> H q0 r0.
have geo (i : nat) : q * (\sum_(j < i) (r * (1 + q) ^+ j)) + r = r * (1 + q) ^+ i.
  elim: i => [|i IH]; first by rewrite big_ord0 mulr0 add0r mulr1.
  by rewrite big_ord_recr /= mulrDr addrAC IH exprS mulrDl mul1r mulrDr mulrCA.
elim/ltn_ind => i IH lt; rewrite -geo; apply: (H i (fun j => r * (1 + q) ^+ j)) => // j lj.
  by rewrite mulr_ge0 ?exprn_ge0 ?addr_ge0 ?ler01.
by apply: IH => //; apply: ltn_trans lj lt.
Qed.

End Within.

(** ** Second kind *)
Section Second.
Variables (R : realFieldType) (d m : nat) (dt c M r : R).
Variables (B0 : 'M[R]_d) (Bd : seq 'M[R]_d) (Dd K : seq 'M[R]_(d, m)) (X : nat -> 'M[R]_(d, m)).
Hypothesis (dt0 : 0 <= dt) (c0 : 0 <= c) (M0 : 0 <= M) (r0 : 0 <= r).
Hypothesis bB : forall i, (i < size Bd)%N -> within M Bd`_i.
Hypothesis X0 : K`_0 = X 0%N.

Lemma second_rect_error : coer c B0 -> solves2_rect dt B0 Bd Dd K ->
  (forall i, (0 < i < size Bd)%N ->
     within r (rect_rule dt (fun j => Bd`_(i - j) *m X j) i + Dd`_i - B0 *m X i)) ->
  forall i, (i < size Bd)%N -> within (c * r * (1 + c * (d%:R * M) * dt) ^+ i) (K`_i - X i).
Proof.
move=> hc sol res; apply: (gronwall (e := fun i => K`_i - X i)); last 2 first.
- by rewrite !mulr_ge0 ?ler0n.
- by rewrite mulr_ge0.
move=> i u lt u0 hu; case: (posnP i) => [E|ip].
  rewrite E X0 subrr; apply: within0; rewrite big_ord0 mulr0 add0r; exact: mulr_ge0.
have -> : c * (d%:R * M) * dt * (\sum_(j < i) u j) + c * r = c * (dt * (\sum_(j < i) d%:R * (M * u j)) + r).
  rewrite mulrDr; congr (_ + _); rewrite -!mulrA; congr (_ * _).
  by rewrite -mulr_sumr -mulr_sumr [RHS]mulrCA; congr (_ * _); rewrite [RHS]mulrCA.
apply: hc; rewrite mulmxBr sol ?ip //.
set a := rect_rule _ _ _; set b := Dd`_i; set x := B0 *m X i.
have -> : a + b - x = (a - rect_rule dt (fun j => Bd`_(i - j) *m X j) i) +
   (rect_rule dt (fun j => Bd`_(i - j) *m X j) i + b - x) by rewrite -!addrA addKr.
apply: withinD; last by apply: res; rewrite ip.
rewrite /a /rect_rule -scalerBr -sumrB; apply: withinZp => //.
apply: (@within_sum _ _ _ i (fun j => d%:R * (M * u j)) (fun j => Bd`_(i - j) *m K`_j - Bd`_(i - j) *m X j)) => j lj.
by rewrite -mulmxBr; apply: withinM; [apply: bB; lia | apply: hu].
Qed.

Lemma second_trapz_error : coer c (B0 - (2^-1 * dt) *: Bd`_0) -> solves2_trapz dt B0 Bd Dd K ->
  (forall i, (0 < i < size Bd)%N ->
     within r (trapz_rule dt (fun j => Bd`_(i - j) *m X j) i + Dd`_i - B0 *m X i)) ->
  forall i, (i < size Bd)%N -> within (c * r * (1 + c * (d%:R * M) * dt) ^+ i) (K`_i - X i).
Proof.
move=> hc sol res; apply: (gronwall (e := fun i => K`_i - X i)); last 2 first.
- by rewrite !mulr_ge0 ?ler0n.
- by rewrite mulr_ge0.
move=> i u lt u0 hu; case: (posnP i) => [E|ip].
  rewrite E X0 subrr; apply: within0; rewrite big_ord0 mulr0 add0r; exact: mulr_ge0.
have -> : c * (d%:R * M) * dt * (\sum_(j < i) u j) + c * r = c * (dt * (\sum_(j < i) d%:R * (M * u j)) + r).
  rewrite mulrDr; congr (_ + _); rewrite -!mulrA; congr (_ * _).
  by rewrite -mulr_sumr -mulr_sumr [RHS]mulrCA; congr (_ * _); rewrite [RHS]mulrCA.
apply: hc; rewrite mulmxBl mulmxBr sol ?ip //.
set a := trapz_rule _ _ _; set b := Dd`_i; set x := B0 *m X i.
pose t := trapz_rule dt (fun j => Bd`_(i - j) *m X j) i.
set z := (_ *: _) *m _.
have -> : a + b - x - z = (a - t - z) + (t + b - x).
  by abel.
apply: withinD; last by apply: res; rewrite ip.
have -> : a - t = trapz_rule dt (fun j => Bd`_(i - j) *m (K`_j - X j)) i.
  rewrite /a /t /trapz_rule -scalerBr -sumrB; congr (_ *: _); apply: eq_bigr => j _.
  by rewrite -scalerBr !mulmxBr addrACA opprD.
rewrite trapz_ruleE // /z subnn -scalemxAl addrK X0 subrr mulmx0 scaler0 add0r.
apply: withinZp => //.
have -> : \sum_(1 <= j < i) Bd`_(i - j) *m (K`_j - X j) = \sum_(j < i) Bd`_(i - j) *m (K`_j - X j).
  by rewrite -(big_mkord xpredT (fun j => Bd`_(i - j) *m (K`_j - X j))) [RHS]big_ltn // X0 subrr mulmx0 add0r.
apply: (@within_sum _ _ _ i (fun j => d%:R * (M * u j)) (fun j => Bd`_(i - j) *m (K`_j - X j))) => j lj.
by apply: withinM; [apply: bB; lia | apply: hu].
Qed.

End Second.

(** ** First kind, rectangles *)
Section First.
Variables (R : realFieldType) (d m : nat) (dt c M r : R).
Variables (B : seq 'M[R]_d) (D K : seq 'M[R]_(d, m)) (X : nat -> 'M[R]_(d, m)).
Hypothesis (dt0 : 0 < dt) (c0 : 0 <= c) (M0 : 0 <= M) (r0 : 0 <= r).
(** Successive samples of the correlation are close. *)
Hypothesis bB : forall i, (i.+1 < size B)%N -> within (M * dt) (B`_i.+1 - B`_i).

Lemma first_rect_error : coer c B`_1 -> solves_rect dt B D K -> D`_0 = 0 ->
  (forall i, (i.+1 < size B)%N ->
     within (r * dt) ((rect_rule dt (fun j => B`_(i.+1 - j) *m X j) i.+1 + D`_i.+1)
               - (rect_rule dt (fun j => B`_(i - j) *m X j) i + D`_i))) ->
  forall i, (i < (size B).-1)%N -> within (c * r * (1 + c * (d%:R * M) * dt) ^+ i) (K`_i - X i).
Proof.
move=> hc sol D0 res; apply: (gronwall (e := fun i => K`_i - X i)); last 2 first.
- by rewrite !mulr_ge0 ?ler0n ?(ltW dt0).
- by rewrite mulr_ge0.
move=> i u lt u0 hu.
have -> : c * (d%:R * M) * dt * (\sum_(j < i) u j) + c * r = c * (\sum_(j < i) d%:R * ((M * dt) * u j) + r).
  rewrite mulrDr; congr (_ + _); rewrite -!mulrA; congr (_ * _).
  by rewrite -mulr_sumr -mulr_sumr !mulrA.
apply: hc.
pose S (Y : nat -> 'M[R]_(d, m)) k := rect_rule dt (fun j => B`_(k - j) *m Y j) k.
have solS k : (k < size B)%N -> S (fun j => K`_j) k = - D`_k.
  case: k => [|k] lk; last by apply: sol; rewrite lk.
  by rewrite /S /rect_rule big_ord0 scaler0 D0 oppr0.
have SD Y k : S Y k.+1 - S Y k =
   dt *: (\sum_(j < k) (B`_(k - j).+1 - B`_(k - j)) *m Y j + B`_1 *m Y k).
  rewrite /S /rect_rule -scalerBr big_ord_recr /= subSnn addrAC -sumrB; congr (_ *: (_ + _)).
  by apply: eq_bigr => j _; rewrite subSn ?mulmxBl //; apply: ltnW.
have E : dt *: (B`_1 *m (K`_i - X i)) =
   - (dt *: \sum_(j < i) (B`_(i - j).+1 - B`_(i - j)) *m (K`_j - X j))
   - ((S X i.+1 + D`_i.+1) - (S X i + D`_i)).
  have h1 := SD (fun j => K`_j) i; have h2 := SD X i.
  rewrite !solS in h1; [|lia|lia].
  have -> : (S X i.+1 + D`_i.+1) - (S X i + D`_i) = (S X i.+1 - S X i) - (- D`_i.+1 - - D`_i).
    by abel.
  rewrite h1 h2 -!scalerBr mulmxBr; have -> : forall p q : 'M[R]_(d, m), - (dt *: p) - dt *: q = dt *: (- p - q).
    by move=> p q; rewrite scalerBr scalerN.
  congr (_ *: _).
  have -> : \sum_(j < i) (B`_(i - j).+1 - B`_(i - j)) *m (K`_j - X j) =
    \sum_(j < i) (B`_(i - j).+1 - B`_(i - j)) *m K`_j - \sum_(j < i) (B`_(i - j).+1 - B`_(i - j)) *m X j.
    by rewrite -sumrB; apply: eq_bigr => j _; rewrite mulmxBr.
  set p := \sum_(j < i) _; set q := \sum_(j < i) _.
  by abel.
have -> : B`_1 *m (K`_i - X i) = dt^-1 *: (dt *: (B`_1 *m (K`_i - X i))).
  by rewrite scalerA mulVf ?scale1r ?gt_eqF.
rewrite E.
have -> : \sum_(j < i) d%:R * (M * dt * u j) + r = dt^-1 * (dt * (\sum_(j < i) d%:R * (M * dt * u j)) + r * dt).
  by rewrite mulrDr mulKf ?gt_eqF // [r * dt]mulrC mulKf ?gt_eqF.
apply: withinZp; first by rewrite invr_ge0 ltW.
apply: withinB; last by apply: res; lia.
apply: withinN; apply: withinZp; first exact: ltW.
apply: (@within_sum _ _ _ i (fun j => d%:R * (M * dt * u j)) (fun j => (B`_(i - j).+1 - B`_(i - j)) *m (K`_j - X j))) => j lj.
by apply: withinM; [apply: bB; lia | apply: hu].
Qed.
End First.
