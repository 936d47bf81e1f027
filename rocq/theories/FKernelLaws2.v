(** * Basis change and linearity of the inversion. *)
From mathcomp Require Import all_ssreflect all_algebra.
From mathcomp Require Import zify.
From Verif Require Import Base Tactics FKernel Quadrature FKernelSpec FKernelProofs FKernelProofs2 FKernelLaws.
Set Implicit Arguments.
Unset Strict Implicit.
Unset Printing Implicit Defensive.
Import GRing.Theory Num.Theory.
Local Open Scope ring_scope.

Lemma nth_map0 (V W : zmodType) (f : V -> W) (s : seq V) i :
  f 0 = 0 -> nth 0 [seq f x | x <- s] i = f (nth 0 s i).
Proof.
move=> f0; case: (ltnP i (size s)) => lt; first by rewrite (nth_map 0).
by rewrite !nth_default ?size_map.
Qed.

(** Pointwise linear combination of two sample sequences. *)
Definition lincomb (R : realFieldType) (V : lmodType R) (a b : R) (s t : seq V) : seq V :=
  [seq a *: p.1 + b *: p.2 | p <- zip s t].

Lemma size_lincomb (R : realFieldType) (V : lmodType R) (a b : R) (s t : seq V) :
  size s = size t -> size (lincomb a b s t) = size s.
Proof. by move=> st; rewrite size_map size1_zip // st. Qed.

Lemma nth_lincomb (R : realFieldType) (V : lmodType R) (a b : R) (s t : seq V) i :
  size s = size t -> nth 0 (lincomb a b s t) i = a *: nth 0 s i + b *: nth 0 t i.
Proof.
move=> st; case: (ltnP i (size s)) => lt.
  rewrite (nth_map (0 : V, 0 : V)) ?size1_zip -?st //.
  by rewrite (nth_zip (0 : V) (0 : V)).
by rewrite !nth_default ?scaler0 ?addr0 ?size_lincomb -?st.
Qed.

Section BasisChange.
Variables (R : realFieldType) (d m : nat) (P : 'M[R]_d).
Hypothesis uP : P \in unitmx.
Implicit Types (dt : R) (B Bd : seq 'M[R]_d) (D Dd K buf : seq 'M[R]_(d, m)).

(** Correlations of the basis [P E]. *)
Definition chg2 (A : 'M[R]_d) : 'M[R]_d := P *m A *m P^T.
Definition chg1 (A : 'M[R]_(d, m)) : 'M[R]_(d, m) := P *m A.
(** Kernel coefficients in the new basis. *)
Definition chgK (A : 'M[R]_(d, m)) : 'M[R]_(d, m) := invmx P^T *m A.

Lemma chg2_0 : chg2 0 = 0. Proof. by rewrite /chg2 mulmx0 mul0mx. Qed.
Lemma chg1_0 : chg1 0 = 0. Proof. by rewrite /chg1 mulmx0. Qed.
Lemma chgK_0 : chgK 0 = 0. Proof. by rewrite /chgK mulmx0. Qed.

Lemma chg_mul A X : chg2 A *m chgK X = P *m (A *m X).
Proof. by rewrite /chg2 /chgK !mulmxA mulmxK ?unitmx_tr. Qed.

Lemma chg2Z c A : c *: chg2 A = chg2 (c *: A).
Proof. by rewrite /chg2 -scalemxAr -scalemxAl. Qed.

Lemma chg2B A A' : chg2 A - chg2 A' = chg2 (A - A').
Proof. by rewrite /chg2 mulmxBr mulmxBl. Qed.

Lemma chg2_unit A : A \in unitmx -> chg2 A \in unitmx.
Proof. by move=> uA; rewrite /chg2 !unitmx_mul uP uA unitmx_tr uP. Qed.

Lemma nth_chg2 B i : [seq chg2 A | A <- B]`_i = chg2 B`_i.
Proof. by rewrite nth_map0 ?chg2_0. Qed.
Lemma nth_chg1 D i : [seq chg1 A | A <- D]`_i = chg1 D`_i.
Proof. by rewrite nth_map0 ?chg1_0. Qed.
Lemma nth_chgK K i : [seq chgK A | A <- K]`_i = chgK K`_i.
Proof. by rewrite nth_map0 ?chgK_0. Qed.

Lemma rect_rule_chg dt B K (s : nat -> nat) n :
  rect_rule dt (fun j => [seq chg2 A | A <- B]`_(s j) *m [seq chgK A | A <- K]`_j) n
  = P *m rect_rule dt (fun j => B`_(s j) *m K`_j) n.
Proof.
rewrite /rect_rule -scalemxAr; congr (_ *: _); rewrite mulmx_sumr.
by apply: eq_bigr => j _; rewrite nth_chg2 nth_chgK chg_mul.
Qed.

Lemma trapz_rule_chg dt B K (s : nat -> nat) n :
  trapz_rule dt (fun j => [seq chg2 A | A <- B]`_(s j) *m [seq chgK A | A <- K]`_j) n
  = P *m trapz_rule dt (fun j => B`_(s j) *m K`_j) n.
Proof.
rewrite /trapz_rule -scalemxAr; congr (_ *: _); rewrite mulmx_sumr.
by apply: eq_bigr => j _; rewrite !nth_chg2 !nth_chgK !chg_mul -scalemxAr mulmxDr.
Qed.

Lemma rect_basis_change dt B D K :
  kernel_first_kind_rect dt B D = Ok K ->
  kernel_first_kind_rect dt [seq chg2 A | A <- B] [seq chg1 A | A <- D]
  = Ok [seq chgK A | A <- K].
Proof.
move=> /(rect_charact _ _ _ (size_nseq _ _)) [[sD s1 uA] [sz lst H]].
apply/rect_charact; first by rewrite size_nseq.
rewrite !size_map nth_chg2 chg2Z nth_chgK lst !nth_nseq !if_same chgK_0.
do !split=> //; first exact: chg2_unit.
move=> i; rewrite size_map => /H {}H.
by rewrite (rect_rule_chg _ _ _ (fun j => i - j)%N) H nth_chg1 mulmxN.
Qed.

Lemma mid_basis_change dt B D K :
  kernel_first_kind_midpoint dt B D = Ok K ->
  kernel_first_kind_midpoint dt [seq chg2 A | A <- B] [seq chg1 A | A <- D]
  = Ok [seq chgK A | A <- K].
Proof.
move=> /(mid_charact _ _ _ (size_nseq _ _)) [[sD s1 uA] [sz lst H]].
apply/mid_charact; first by rewrite size_nseq.
rewrite !size_map nth_chg2 chg2Z; do !split=> //; first exact: chg2_unit.
  move=> j lj; rewrite nth_chgK lst; last by move: lj; rewrite /mid_hi size_map.
  by rewrite !nth_nseq !if_same chgK_0.
move=> i; rewrite /mid_hi size_map => /H; rewrite /midpoint_coded => {}H.
rewrite nth_chg1 /chg1 -mulmxN -H -scalemxAr mulmxDr mulmx_sumr nth_chg2 nth_chgK chg_mul.
congr (_ *: (_ + _)); apply: eq_bigr => j _.
by rewrite nth_chg2 nth_chgK chg_mul.
Qed.

Lemma trapz_basis_change dt k0 B D K :
  kernel_first_kind_trapz dt k0 B D = Ok K ->
  kernel_first_kind_trapz dt (chgK k0) [seq chg2 A | A <- B] [seq chg1 A | A <- D]
  = Ok [seq chgK A | A <- K].
Proof.
move=> /(trapz_charact _ _ _ _ (size_nseq _ _)) [[sD s1 uA] [sz fst' H]].
apply/trapz_charact; first by rewrite size_nseq.
rewrite !size_map nth_chg2 chg2Z nth_chgK fst'.
do !split=> //; first exact: chg2_unit.
move=> i; rewrite size_map => /H {}H.
by rewrite (trapz_rule_chg _ _ _ (fun j => i - j)%N) H nth_chg1 mulmxN.
Qed.

Lemma rect2_basis_change dt k0 (B0 : 'M[R]_d) Bd Dd K :
  kernel_second_kind_rect dt k0 B0 Bd Dd = Ok K ->
  kernel_second_kind_rect dt (chgK k0) (chg2 B0) [seq chg2 A | A <- Bd] [seq chg1 A | A <- Dd]
  = Ok [seq chgK A | A <- K].
Proof.
move=> /(rect2_charact _ _ _ _ _ (size_nseq _ _)) [[sD s1 uA] [sz fst' H]].
apply/rect2_charact; first by rewrite size_nseq.
rewrite !size_map nth_chgK fst'.
do !split=> //; first exact: chg2_unit.
move=> i; rewrite size_map => /H {}H.
by rewrite (rect_rule_chg _ _ _ (fun j => i - j)%N) nth_chgK nth_chg1 chg_mul H mulmxDr.
Qed.

Lemma trapz2_basis_change dt k0 (B0 : 'M[R]_d) Bd Dd K :
  kernel_second_kind_trapz dt k0 B0 Bd Dd = Ok K ->
  kernel_second_kind_trapz dt (chgK k0) (chg2 B0) [seq chg2 A | A <- Bd] [seq chg1 A | A <- Dd]
  = Ok [seq chgK A | A <- K].
Proof.
move=> /(trapz2_charact _ _ _ _ _ (size_nseq _ _)) [[sD s1 uA] [sz fst' H]].
apply/trapz2_charact; first by rewrite size_nseq.
rewrite !size_map nth_chg2 chg2Z chg2B nth_chgK fst'.
do !split=> //; first exact: chg2_unit.
move=> i; rewrite size_map => /H {}H.
by rewrite (trapz_rule_chg _ _ _ (fun j => i - j)%N) nth_chgK nth_chg1 chg_mul H mulmxDr.
Qed.

(** Row vectors of basis values in the new basis: [(P E^T)^T = E P^T]. *)
Definition chgE (e : 'rV[R]_d) : 'rV[R]_d := e *m P^T.

Lemma chgE_mul e X : chgE e *m chgK X = e *m X.
Proof. by rewrite /chgE /chgK !mulmxA mulmxK ?unitmx_tr. Qed.

End BasisChange.

Section Linear.
Variables (R : realFieldType) (d m : nat).
Implicit Types (a b dt : R) (B Bd : seq 'M[R]_d) (D Dd K : seq 'M[R]_(d, m)).

Lemma rect_linear dt a b B D1 D2 K1 K2 :
  kernel_first_kind_rect dt B D1 = Ok K1 -> kernel_first_kind_rect dt B D2 = Ok K2 ->
  kernel_first_kind_rect dt B (lincomb a b D1 D2) = Ok (lincomb a b K1 K2).
Proof.
move=> /(rect_charact _ _ _ (size_nseq _ _)) [[sD s1 uA] [sz lst H]].
move=> /(rect_charact _ _ _ (size_nseq _ _)) [[sD' _ _] [sz' lst' H']].
have sDD : size D1 = size D2 by rewrite sD sD'.
have sKK : size K1 = size K2 by rewrite sz sz'.
apply/rect_charact; first by rewrite size_nseq.
rewrite !size_lincomb // nth_lincomb // lst lst'.
rewrite !nth_nseq !if_same !scaler0 addr0; do !split=> //.
move=> i rg; rewrite nth_lincomb // opprD -!scalerN -H // -H' // -rect_rule_comb.
by apply: rect_rule_eq => j _; rewrite nth_lincomb // mulmxDr -!scalemxAr.
Qed.

Lemma mid_linear dt a b B D1 D2 K1 K2 :
  kernel_first_kind_midpoint dt B D1 = Ok K1 -> kernel_first_kind_midpoint dt B D2 = Ok K2 ->
  kernel_first_kind_midpoint dt B (lincomb a b D1 D2) = Ok (lincomb a b K1 K2).
Proof.
move=> /(mid_charact _ _ _ (size_nseq _ _)) [[sD s1 uA] [sz lst H]].
move=> /(mid_charact _ _ _ (size_nseq _ _)) [[sD' _ _] [sz' lst' H']].
have sDD : size D1 = size D2 by rewrite sD sD'.
have sKK : size K1 = size K2 by rewrite sz sz'.
apply/mid_charact; first by rewrite size_nseq.
rewrite !size_lincomb //; do !split=> //.
  move=> j lj; rewrite nth_lincomb // lst // lst' //.
  by rewrite !nth_nseq !if_same !scaler0 addr0.
move=> i rg; have := H i rg; have := H' i rg; rewrite /midpoint_coded => E' E.
rewrite (nth_lincomb _ _ (2 * i + 1) sDD) opprD -!scalerN -E -E' {E E'}.
rewrite nth_lincomb // mulmxDr -!scalemxAr.
rewrite (eq_bigr (fun j : 'I_i => a *: (B`_(2 * (i - j)) *m K1`_j) + b *: (B`_(2 * (i - j)) *m K2`_j))); last first.
  by move=> j _; rewrite nth_lincomb // mulmxDr -!scalemxAr.
rewrite big_split /= -!scaler_sumr addrACA -[a *: _ + a *: _]scalerDr -[b *: _ + b *: _]scalerDr.
by rewrite [LHS]scalerDr !scalerA [a * _]mulrC [b * _]mulrC.
Qed.

Lemma trapz_linear dt a b k1 k2 B D1 D2 K1 K2 :
  kernel_first_kind_trapz dt k1 B D1 = Ok K1 -> kernel_first_kind_trapz dt k2 B D2 = Ok K2 ->
  kernel_first_kind_trapz dt (a *: k1 + b *: k2) B (lincomb a b D1 D2) = Ok (lincomb a b K1 K2).
Proof.
move=> /(trapz_charact _ _ _ _ (size_nseq _ _)) [[sD s1 uA] [sz fst1 H]].
move=> /(trapz_charact _ _ _ _ (size_nseq _ _)) [[sD' _ _] [sz' fst2 H']].
have sDD : size D1 = size D2 by rewrite sD sD'.
have sKK : size K1 = size K2 by rewrite sz sz'.
apply/trapz_charact; first by rewrite size_nseq.
rewrite !size_lincomb // nth_lincomb // fst1 fst2; do !split=> //.
move=> i rg; rewrite nth_lincomb // opprD -!scalerN -H // -H' // -trapz_rule_comb.
by apply: trapz_rule_eq => j _; rewrite nth_lincomb // mulmxDr -!scalemxAr.
Qed.

Lemma rect2_linear dt a b k1 k2 (B0 : 'M[R]_d) Bd D1 D2 K1 K2 :
  kernel_second_kind_rect dt k1 B0 Bd D1 = Ok K1 ->
  kernel_second_kind_rect dt k2 B0 Bd D2 = Ok K2 ->
  kernel_second_kind_rect dt (a *: k1 + b *: k2) B0 Bd (lincomb a b D1 D2) = Ok (lincomb a b K1 K2).
Proof.
move=> /(rect2_charact _ _ _ _ _ (size_nseq _ _)) [[sD s1 uA] [sz fst1 H]].
move=> /(rect2_charact _ _ _ _ _ (size_nseq _ _)) [[sD' _ _] [sz' fst2 H']].
have sDD : size D1 = size D2 by rewrite sD sD'.
have sKK : size K1 = size K2 by rewrite sz sz'.
apply/rect2_charact; first by rewrite size_nseq.
rewrite !size_lincomb // nth_lincomb // fst1 fst2; do !split=> //.
move=> i rg; rewrite !nth_lincomb // mulmxDr -!scalemxAr H // H' // !scalerDr.
rewrite addrACA -rect_rule_comb; congr (_ + _).
by apply: rect_rule_eq => j _; rewrite nth_lincomb // mulmxDr -!scalemxAr.
Qed.

Lemma trapz2_linear dt a b k1 k2 (B0 : 'M[R]_d) Bd D1 D2 K1 K2 :
  kernel_second_kind_trapz dt k1 B0 Bd D1 = Ok K1 ->
  kernel_second_kind_trapz dt k2 B0 Bd D2 = Ok K2 ->
  kernel_second_kind_trapz dt (a *: k1 + b *: k2) B0 Bd (lincomb a b D1 D2) = Ok (lincomb a b K1 K2).
Proof.
move=> /(trapz2_charact _ _ _ _ _ (size_nseq _ _)) [[sD s1 uA] [sz fst1 H]].
move=> /(trapz2_charact _ _ _ _ _ (size_nseq _ _)) [[sD' _ _] [sz' fst2 H']].
have sDD : size D1 = size D2 by rewrite sD sD'.
have sKK : size K1 = size K2 by rewrite sz sz'.
apply/trapz2_charact; first by rewrite size_nseq.
rewrite !size_lincomb // nth_lincomb // fst1 fst2; do !split=> //.
move=> i rg; rewrite !nth_lincomb // mulmxDr -!scalemxAr H // H' // !scalerDr.
rewrite addrACA -trapz_rule_comb; congr (_ + _).
by apply: trapz_rule_eq => j _; rewrite nth_lincomb // mulmxDr -!scalemxAr.
Qed.

End Linear.
