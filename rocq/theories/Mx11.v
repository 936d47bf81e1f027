(** * One-by-one matrices over the rationals, for concrete witnesses. *)
From mathcomp Require Import all_ssreflect all_algebra.
From mathcomp Require Import zify.
Set Implicit Arguments.
Unset Strict Implicit.
Unset Printing Implicit Defensive.
Import GRing.Theory Num.Theory.
Local Open Scope ring_scope.

(** The 1x1 matrix with entry [a]. *)
Definition c1 (a : rat) : 'M[rat]_1 := \matrix_(_, _) a.

Lemma mx11_eq (A B : 'M[rat]_1) : A 0 0 = B 0 0 -> A = B.
Proof. by move=> H; apply/matrixP => i j; rewrite !ord1. Qed.

Lemma mx11_eqE (A B : 'M[rat]_1) : (A = B) <-> (A 0 0 = B 0 0).
Proof. by split=> [->|/mx11_eq]. Qed.

Lemma mul11E (A B : 'M[rat]_1) : (A *m B) 0 0 = A 0 0 * B 0 0.
Proof. by rewrite mxE big_ord1. Qed.

Lemma c1E a i j : c1 a i j = a. Proof. by rewrite mxE. Qed.
Lemma add11E (A B : 'M[rat]_1) : (A + B) 0 0 = A 0 0 + B 0 0. Proof. by rewrite mxE. Qed.
Lemma opp11E (A : 'M[rat]_1) : (- A) 0 0 = - A 0 0. Proof. by rewrite mxE. Qed.
Lemma scale11E a (A : 'M[rat]_1) : (a *: A) 0 0 = a * A 0 0. Proof. by rewrite mxE. Qed.
Lemma zero11E : (0 : 'M[rat]_1) 0 0 = 0. Proof. by rewrite mxE. Qed.
Lemma one11E : (1%:M : 'M[rat]_1) 0 0 = 1. Proof. by rewrite mxE. Qed.
Lemma tr11E (A : 'M[rat]_1) : A^T 0 0 = A 0 0. Proof. by rewrite mxE. Qed.

Definition mx11 := (mul11E, c1E, add11E, opp11E, scale11E, zero11E, one11E, tr11E).

Lemma unit11 (A : 'M[rat]_1) : (A \in unitmx) = (A 0 0 != 0).
Proof. by rewrite unitmxE det_mx11 unitfE. Qed.
