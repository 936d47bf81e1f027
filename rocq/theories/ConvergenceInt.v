(** * Quadrature errors of Lipschitz and of smooth integrands. *)
From Coq Require Import Reals Lra.
From Coquelicot Require Import Coquelicot.
From mathcomp Require Import all_ssreflect.
Set Implicit Arguments.
Unset Strict Implicit.
Unset Printing Implicit Defensive.
Local Open Scope R_scope.

(** ** Integrability *)
Definition clamp (a b x : R) : R := Rmax a (Rmin b x).

Lemma clamp_in a b x : a <= b -> a <= clamp a b x <= b.
Proof.
move=> ab; rewrite /clamp; split; first exact: Rmax_l.
by apply: Rmax_lub => //; apply: Rmin_l.
Qed.

Lemma clamp_id a b x : a <= x <= b -> clamp a b x = x.
Proof. by case=> h1 h2; rewrite /clamp Rmin_right // Rmax_right. Qed.

Lemma clamp_lip a b x y : Rabs (clamp a b x - clamp a b y) <= Rabs (x - y).
Proof.
rewrite /clamp /Rmin; case: (Rle_dec b x) => ?; case: (Rle_dec b y) => ?; rewrite /Rmax;
  repeat (case: Rle_dec => ? /=); rewrite /Rabs; repeat (case: Rcase_abs => ? /=); lra.
Qed.

Lemma lip_ex_RInt (g : R -> R) a b L : a <= b ->
  (forall x y, a <= x <= b -> a <= y <= b -> Rabs (g x - g y) <= L * Rabs (x - y)) -> ex_RInt g a b.
Proof.
move=> ab H.
apply: (ex_RInt_ext (fun x => g (clamp a b x))) => [x|].
  by rewrite Rmin_left // Rmax_right // => -[h1 h2]; rewrite clamp_id //; lra.
apply: ex_RInt_continuous => z _.
apply/continuity_pt_filterlim => eps e0.
have l0 : 0 < Rabs L + 1 by have := Rabs_pos L; lra.
exists (eps / (Rabs L + 1)); split; first exact: Rdiv_lt_0_compat.
move=> x [_ hx]; rewrite /= /R_dist in hx *.
apply: Rle_lt_trans (H _ _ (clamp_in x ab) (clamp_in z ab)) _.
have h1 := clamp_lip a b x z.
have h2 : L * Rabs (clamp a b x - clamp a b z) <= (Rabs L + 1) * Rabs (x - z).
  have := Rle_abs L; have := Rabs_pos L; have := Rabs_pos (clamp a b x - clamp a b z); nra.
apply: Rle_lt_trans h2 _.
have -> : eps = (Rabs L + 1) * (eps / (Rabs L + 1)) by field; lra.
exact: Rmult_lt_compat_l.
Qed.

(** ** One panel *)
Lemma panel_const (g : R -> R) a b v e : a <= b -> ex_RInt g a b ->
  (forall s, a <= s <= b -> Rabs (g s - v) <= e) -> Rabs (RInt g a b - (b - a) * v) <= (b - a) * e.
Proof.
move=> ab ex H.
have -> : (b - a) * v = RInt (fun _ => v) a b by rewrite RInt_const.
rewrite -[_ - _]/(minus (RInt g a b) (RInt (fun _ => v) a b)) -RInt_minus //; last exact: ex_RInt_const.
apply: (@abs_RInt_le_const (fun s => minus (g s) v)) => //.
by apply: ex_RInt_minus => //; exact: ex_RInt_const.
Qed.

Lemma RInt_line a b u p : RInt (fun s => u + p * (s - a)) a b = (b - a) * u + p * (b - a) ^ 2 / 2.
Proof.
apply: is_RInt_unique.
have -> : (b - a) * u + p * (b - a) ^ 2 / 2 =
  minus (b * u + p * (b - a) ^ 2 / 2) (a * u + p * (a - a) ^ 2 / 2) by rewrite /minus /plus /opp /=; field.
apply: (@is_RInt_derive _ (fun s => s * u + p * (s - a) ^ 2 / 2)) => x _.
  by auto_derive => //; field.
apply: (@ex_derive_continuous _ _ (fun s => u + p * (s - a))); by auto_derive.
Qed.

Lemma panel_trapz (g : R -> R) a b p L : a <= b -> 0 <= L -> ex_RInt g a b ->
  (forall s, a <= s <= b -> Rabs (g s - g a - (s - a) * p) <= L * (s - a) ^ 2) ->
  Rabs (RInt g a b - (b - a) * (/ 2 * (g a + g b))) <= 2 * L * (b - a) ^ 3.
Proof.
move=> ab L0 ex H.
have exl : ex_RInt (fun s => g a + p * (s - a)) a b.
  apply: ex_RInt_continuous => z _.
  by apply: (@ex_derive_continuous _ _ (fun s => g a + p * (s - a))); auto_derive.
have h1 : Rabs (RInt g a b - RInt (fun s => g a + p * (s - a)) a b) <= (b - a) * (L * (b - a) ^ 2).
  rewrite -[_ - _]/(minus (RInt g a b) (RInt (fun s => g a + p * (s - a)) a b)) -RInt_minus //.
  apply: (@abs_RInt_le_const (fun s => minus (g s) (g a + p * (s - a)))) => //.
    exact: ex_RInt_minus.
  move=> t ht; rewrite /minus /plus /opp /=.
  have -> : g t + - (g a + p * (t - a)) = g t - g a - (t - a) * p by ring.
  apply: Rle_trans (H t ht) _; apply: Rmult_le_compat_l => //.
  by apply: pow_incr; lra.
rewrite RInt_line in h1.
have h2 := H b (conj ab (Rle_refl b)).
have h3 : Rabs ((b - a) * (g b - g a - (b - a) * p)) <= (b - a) * (L * (b - a) ^ 2).
  rewrite Rabs_mult Rabs_right; last lra.
  by apply: Rmult_le_compat_l => //; lra.
have -> : RInt g a b - (b - a) * (/ 2 * (g a + g b)) =
  (RInt g a b - ((b - a) * g a + p * (b - a) ^ 2 / 2)) - / 2 * ((b - a) * (g b - g a - (b - a) * p)) by field.
apply: Rle_trans (Rabs_triang _ _) _; rewrite Rabs_Ropp [Rabs (/ 2 * _)]Rabs_mult (Rabs_right (/ 2)); last lra.
have p0 : 0 <= (b - a) * (L * (b - a) ^ 2).
  by apply: Rmult_le_pos; [lra | apply: Rmult_le_pos => //; apply: pow_le; lra].
have -> : 2 * L * (b - a) ^ 3 = (b - a) * (L * (b - a) ^ 2) * 2 by ring.
by move: h1 h3 p0; set z := (b - a) * (L * _); move=> *; lra.
Qed.

