(** * The kernel [exp (- t)]: [B(t) = 1 + t], [D(t) = - t]. *)
From Coq Require Import Reals Lra.
From Coquelicot Require Import Coquelicot.
From mathcomp Require Import all_ssreflect.
Set Implicit Arguments.
Unset Strict Implicit.
Unset Printing Implicit Defensive.
Local Open Scope R_scope.

Lemma exp_tangent a b : (b - a) * exp a <= exp b - exp a.
Proof.
have -> : exp b = exp (b - a) * exp a by rewrite -exp_plus; congr exp; ring.
have := exp_ineq1_le (b - a); have := exp_pos a; nra.
Qed.

Lemma exp_le1 x : 0 <= x -> 0 <= exp (- x) <= 1.
Proof.
move=> x0; split; first exact: Rlt_le (exp_pos _).
by case: x0 => [lt|<-]; [rewrite -exp_0; apply/Rlt_le/exp_increasing; lra | rewrite Ropp_0 exp_0; lra].
Qed.

Lemma exp_lip x y : 0 <= x -> 0 <= y -> Rabs (exp (- x) - exp (- y)) <= Rabs (x - y).
Proof.
move=> /exp_le1 hx /exp_le1 hy.
have h1 := exp_tangent (- x) (- y); have h2 := exp_tangent (- y) (- x).
rewrite /Rabs; case: Rcase_abs => ?; case: Rcase_abs => ?; nra.
Qed.

Lemma exp_quad x y : 0 <= x -> 0 <= y ->
  Rabs (exp (- y) - exp (- x) - (y - x) * (- exp (- x))) <= (y - x) * (y - x).
Proof.
move=> x0 y0; have h1 := exp_tangent (- x) (- y); have h2 := exp_tangent (- y) (- x).
have l := exp_lip x0 y0; rewrite Rabs_right; last by nra.
have h3 : exp (- y) - exp (- x) - (y - x) * - exp (- x) <= (y - x) * (exp (- x) - exp (- y)) by nra.
apply: Rle_trans h3 _; apply: Rle_trans (Rle_abs _) _; rewrite Rabs_mult.
have -> : (y - x) * (y - x) = Rabs (y - x) * Rabs (x - y).
  rewrite [Rabs (x - y)]Rabs_minus_sym -Rabs_mult Rabs_right //.
  by have := Rle_0_sqr (y - x); rewrite /Rsqr; lra.
by apply: Rmult_le_compat_l => //; exact: Rabs_pos.
Qed.

Lemma wit_int1 t : RInt (fun s => (1 + (t - s)) * exp (- s)) 0 t = t.
Proof.
apply: is_RInt_unique.
have E : minus (- (t - t) * exp (- t)) (- (t - 0) * exp (- 0)) = t.
  by rewrite /minus /plus /opp /= Ropp_0 exp_0; ring.
rewrite -[X in is_RInt _ _ _ X]E.
apply: (@is_RInt_derive _ (fun s => - (t - s) * exp (- s))) => x _.
  by auto_derive => //; ring.
by apply: (@ex_derive_continuous _ _ (fun s => (1 + (t - s)) * exp (- s))); auto_derive.
Qed.

Lemma wit_int2 t : RInt (fun s => (-1) * exp (- s)) 0 t = exp (- t) - 1.
Proof.
apply: is_RInt_unique.
have -> : exp (- t) - 1 = minus (exp (- t)) (exp (- 0)).
  by rewrite /minus /plus /opp /= Ropp_0 exp_0; ring.
apply: (@is_RInt_derive _ (fun s => exp (- s))) => x _.
  by auto_derive => //; ring.
by apply: (@ex_derive_continuous _ _ (fun s => (-1) * exp (- s))); auto_derive.
Qed.
