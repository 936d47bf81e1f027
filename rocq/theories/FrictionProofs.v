(** * Simpson's rule on unequal intervals integrates polynomials exactly. *)
From mathcomp Require Import all_ssreflect all_algebra zify.
From Coq Require Import Field.
From Verif Require Import Base Tactics FitMemory Friction.
Set Implicit Arguments.
Unset Strict Implicit.
Unset Printing Implicit Defensive.
Import Order.TTheory GRing.Theory Num.Theory.
Local Open Scope ring_scope.

Section Pieces.
Variable R : realFieldType.
Add Field RF : (mc_field_theory R).
Local Ltac rng := fold_ring (Num.RealField.fieldType R); ring.
Local Ltac fld := fold_ring (Num.RealField.fieldType R); field.
Variables (a b c e f : R).
Definition q (t : R) : R := b + 2 * c * t + 3%:R * e * t ^+ 2.
Definition Q (t : R) : R := a + b * t + c * t ^+ 2 + e * t ^+ 3.
Definition q3 (t : R) : R := b + 2 * c * t + 3%:R * e * t ^+ 2 + 4%:R * f * t ^+ 3.
Definition Q4 (t : R) : R := a + b * t + c * t ^+ 2 + e * t ^+ 3 + f * t ^+ 4.

Lemma div0E (u v : R) : v != 0 -> div0 u v = u / v.
Proof. by rewrite /div0 => /negbTE ->. Qed.

Lemma pair_exact (x0 x1 x2 : R) : x0 < x1 -> x1 < x2 -> pair_simpson x0 x1 x2 (q x0) (q x1) (q x2) = Q x2 - Q x0.
Proof.
move=> l0 l1; have p0 : 0 < x1 - x0 by rewrite subr_gt0.
have p1 : 0 < x2 - x1 by rewrite subr_gt0.
rewrite /pair_simpson; set h0 := x1 - x0 in p0 *; set h1 := x2 - x1 in p1 *.
have n0 : h0 != 0 by rewrite gt_eqF.
have n1 : h1 != 0 by rewrite gt_eqF.
have -> : x2 = x0 + h0 + h1 by apply/esym; rewrite /h0 /h1; rng.
have -> : x1 = x0 + h0 by apply/esym; rewrite /h0; rng.
clearbody h0 h1.
rewrite !div0E ?mulf_neq0 ?invr_neq0 // /q /Q.
have n6 : (6%:R : R) != 0 by rewrite pnatr_eq0.
have E (u v : R) : 6%:R * (u / 6%:R * v) = u * v by rewrite mulrA mulrCA divff // mulr1.
apply: (mulfI n6); rewrite E.
by fld; repeat split; apply/eqP.
Qed.

Lemma last_exact (x0 x1 x2 : R) : x0 < x1 -> x1 < x2 -> last_simpson x0 x1 x2 (q x0) (q x1) (q x2) = Q x2 - Q x1.
Proof.
move=> l0 l1; have p0 : 0 < x1 - x0 by rewrite subr_gt0.
have p1 : 0 < x2 - x1 by rewrite subr_gt0.
rewrite /last_simpson; set h0 := x1 - x0 in p0 *; set h1 := x2 - x1 in p1 *.
have n0 : h0 != 0 by rewrite gt_eqF.
have n1 : h1 + h0 != 0 by rewrite gt_eqF // addr_gt0.
have -> : x2 = x0 + h0 + h1 by apply/esym; rewrite /h0 /h1; rng.
have -> : x1 = x0 + h0 by apply/esym; rewrite /h0; rng.
clearbody h0 h1.
have n6 : (6%:R : R) != 0 by rewrite pnatr_eq0.
rewrite [h0 + h1]addrC !div0E ?mulf_neq0 // /q /Q -[6%:R * h0 * _]mulrA.
have E2 (u v : R) : u / (6%:R * v) = 6%:R^-1 * (u / v) by rewrite invfM mulrCA.
have E3 (u v w y0 y1 y2 : R) : 6%:R * (6%:R^-1 * u * y2 + 6%:R^-1 * v * y1 - 6%:R^-1 * w * y0) = u * y2 + v * y1 - w * y0.
  by rewrite mulrBr mulrDr -!mulrA !mulVKf.
rewrite !E2; apply: (mulfI n6); rewrite E3.
by fld; repeat split; apply/eqP.
Qed.

Lemma pair_cubic (x0 h : R) : 0 < h -> pair_simpson x0 (x0 + h) (x0 + h + h) (q3 x0) (q3 (x0 + h)) (q3 (x0 + h + h)) = Q4 (x0 + h + h) - Q4 x0.
Proof.
move=> p0; have n0 : h != 0 by rewrite gt_eqF.
have n6 : (6%:R : R) != 0 by rewrite pnatr_eq0.
rewrite /pair_simpson ![_ + h - _]addrC !addKr.
have E (u v : R) : 6%:R * (u / 6%:R * v) = u * v by rewrite mulrA mulrCA divff // mulr1.
rewrite !div0E ?mulf_neq0 ?invr_neq0 //; apply: (mulfI n6); rewrite E /q3 /Q4.
by rewrite divff // divr1; fld; apply/eqP.
Qed.

Lemma trapz_alg (x0 x1 a0 b0 c0 : R) :
  2^-1 * (x1 - x0) * (b0 + 2 * c0 * x1 + (b0 + 2 * c0 * x0))
  = a0 + b0 * x1 + c0 * x1 ^+ 2 - (a0 + b0 * x0 + c0 * x0 ^+ 2).
Proof.
have n2 : (2 : R) != 0 by rewrite pnatr_eq0.
by apply: (mulfI n2); rewrite -mulrA mulVKf //; rng.
Qed.
End Pieces.

Section Exact.
Variable R : realFieldType.
Implicit Types (x : seq R) (P : {poly R}).

Lemma poly4 P : (size P <= 4)%N -> (forall t, P.[t] = Q P`_0 P`_1 P`_2 P`_3 t) /\ (forall t, P^`().[t] = q P`_1 P`_2 P`_3 t).
Proof.
move=> sP; split=> t.
  by rewrite (horner_coef_wide t sP) !big_ord_recr big_ord0 /= /Q expr0 expr1 mulr1 add0r.
have sD : (size P^`() <= 3)%N by apply: leq_trans (size_poly _ _) _; case: (size P) sP.
rewrite (horner_coef_wide t sD) !big_ord_recr big_ord0 /= /q !coef_deriv expr0 expr1 mulr1 add0r mulr1n.
by rewrite !mulr_natl.
Qed.

Lemma poly5 P : (size P <= 5)%N -> (forall t, P.[t] = Q4 P`_0 P`_1 P`_2 P`_3 P`_4 t) /\ (forall t, P^`().[t] = q3 P`_1 P`_2 P`_3 P`_4 t).
Proof.
move=> sP; split=> t.
  by rewrite (horner_coef_wide t sP) !big_ord_recr big_ord0 /= /Q4 expr0 expr1 mulr1 add0r.
have sD : (size P^`() <= 4)%N by apply: leq_trans (size_poly _ _) _; case: (size P) sP.
rewrite (horner_coef_wide t sD) !big_ord_recr big_ord0 /= /q3 !coef_deriv expr0 expr1 mulr1 add0r mulr1n.
by rewrite !mulr_natl.
Qed.

Definition sampled P x := [seq P^`().[t] | t <- x].

Lemma nth_sampled P x i : (i < size x)%N -> (sampled P x)`_i = P^`().[x`_i].
Proof. by move=> li; rewrite (nth_map 0). Qed.

Lemma sorted_step x i : sorted <%R x -> (i.+1 < size x)%N -> x`_i < x`_i.+1.
Proof. by move=> s l; apply: (sorted_ltn_nth lt_trans 0 s); rewrite ?inE // ltnW. Qed.

Lemma basic_exact P x n : (size P <= 4)%N -> sorted <%R x -> (2 * n < size x)%N ->
  basic_simpson x (sampled P x) n = P.[x`_(2 * n)] - P.[x`_0].
Proof.
move=> sP s; have [EP ED] := poly4 sP; elim: n => [|n IH] l; first by rewrite /basic_simpson big_ord0 muln0 subrr.
rewrite /basic_simpson big_ord_recr /= -/(basic_simpson _ _ _) IH; last by move: l; clear; lia.
have l2 : ((2 * n).+2 < size x)%N by move: l; clear; lia.
have l1 : ((2 * n).+1 < size x)%N by rewrite ltnW.
have l0 : (2 * n < size x)%N by rewrite ltnW.
rewrite !nth_sampled // !ED (pair_exact P`_0) ?sorted_step // -!EP.
have -> : (2 * n.+1 = (2 * n).+2)%N by clear; lia.
by rewrite addrC addrA subrK.
Qed.

Lemma basic_cubic P (t0 h : R) N n : (size P <= 5)%N -> 0 < h -> (2 * n < N)%N ->
  let x := mkseq (fun i => t0 + i%:R * h) N in
  basic_simpson x (sampled P x) n = P.[x`_(2 * n)] - P.[x`_0].
Proof.
move=> sP h0 + x; have [EP ED] := poly5 sP; elim: n => [|n IH] l; first by rewrite /basic_simpson big_ord0 muln0 subrr.
rewrite /basic_simpson big_ord_recr /= -/(basic_simpson _ _ _) IH; last by move: l; clear; lia.
have sx : size x = N by rewrite size_mkseq.
have l2 : ((2 * n).+2 < N)%N by move: l; clear; lia.
have l1 : ((2 * n).+1 < N)%N by rewrite ltnW.
have l0 : (2 * n < N)%N by rewrite ltnW.
rewrite !nth_sampled ?sx // !ED.
have S i : (i.+1 < N)%N -> x`_i.+1 = x`_i + h.
  by move=> li; rewrite !nth_mkseq ?(ltnW li) // -addn1 natrD mulrDl mul1r addrA.
rewrite (S (2 * n).+1) // (S (2 * n)%N) // (pair_cubic P`_0) // -!EP -S // -S //.
have -> : (2 * n.+1 = (2 * n).+2)%N by clear; lia.
by rewrite addrC addrA subrK.
Qed.
End Exact.
