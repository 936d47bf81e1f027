(** * The real numbers of the standard library as a real closed field of mathcomp. *)
From Coq Require Import Reals Lra Epsilon FunctionalExtensionality.
From mathcomp Require Import all_ssreflect all_algebra.
Set Implicit Arguments.
Unset Strict Implicit.
Unset Printing Implicit Defensive.

Definition eqr (x y : R) : bool := if Req_EM_T x y is left _ then true else false.

Lemma eqrP : Equality.axiom eqr.
Proof. by move=> x y; rewrite /eqr; case: Req_EM_T => h; [left | right]. Qed.

Canonical R_eqType := Eval hnf in EqType R (EqMixin eqrP).

Definition pickR (P : pred R) (n : nat) : option R :=
  let x := epsilon (inhabits R0) (fun x => P x) in if P x then Some x else None.

Lemma pickR_some P n x : pickR P n = Some x -> P x.
Proof. by rewrite /pickR; case: ifP => // h [<-]. Qed.

Lemma pickR_ex (P : pred R) : (exists x, P x) -> exists n, pickR P n.
Proof. by move=> h; exists 0%N; rewrite /pickR; have -> := epsilon_spec (inhabits R0) (fun x => P x) h. Qed.

Lemma pickR_ext (P Q : pred R) : P =1 Q -> pickR P =1 pickR Q.
Proof. by move=> h n; have -> : P = Q by apply: functional_extensionality => x; rewrite h. Qed.

Canonical R_choiceType := Eval hnf in ChoiceType R (Choice.Mixin pickR_some pickR_ex pickR_ext).

Lemma RplusA : associative Rplus. Proof. by move=> x y z; rewrite Rplus_assoc. Qed.
Lemma RplusC : commutative Rplus. Proof. by move=> x y; rewrite Rplus_comm. Qed.
Lemma Rplus0 : left_id R0 Rplus. Proof. by move=> x; rewrite Rplus_0_l. Qed.
Lemma RplusN : left_inverse R0 Ropp Rplus. Proof. by move=> x; rewrite Rplus_opp_l. Qed.
Canonical R_zmodType := Eval hnf in ZmodType R (ZmodMixin RplusA RplusC Rplus0 RplusN).

Lemma RmultA : associative Rmult. Proof. by move=> x y z; rewrite Rmult_assoc. Qed.
Lemma RmultC : commutative Rmult. Proof. by move=> x y; rewrite Rmult_comm. Qed.
Lemma Rmult1 : left_id R1 Rmult. Proof. by move=> x; rewrite Rmult_1_l. Qed.
Lemma RmultD : left_distributive Rmult Rplus.
Proof. by move=> x y z; rewrite Rmult_plus_distr_r. Qed.
Lemma R1neq0 : R1 != R0 :> R. Proof. by apply/eqP; exact: R1_neq_R0. Qed.
Canonical R_ringType := Eval hnf in RingType R (ComRingMixin RmultA RmultC Rmult1 RmultD R1neq0).
Canonical R_comRingType := Eval hnf in ComRingType R RmultC.

Definition Rinvx (x : R) : R := if x != R0 then Rinv x else R0.
Lemma RmultV x : x != R0 -> Rmult (Rinvx x) x = R1.
Proof. by move=> h; rewrite /Rinvx h Rinv_l //; exact/eqP. Qed.
Lemma Rinvx0 : Rinvx R0 = R0. Proof. by rewrite /Rinvx eqxx. Qed.
Definition R_fieldMixin := FieldMixin RmultV Rinvx0.
Canonical R_unitRingType := Eval hnf in UnitRingType R (FieldUnitMixin RmultV Rinvx0).
Canonical R_comUnitRingType := Eval hnf in [comUnitRingType of R].
Canonical R_idomainType := Eval hnf in IdomainType R (FieldIdomainMixin R_fieldMixin).
Canonical R_fieldType := Eval hnf in FieldType R R_fieldMixin.

Definition Rleb (x y : R) : bool := if Rle_dec x y is left _ then true else false.
Definition Rltb (x y : R) : bool := if Rlt_dec x y is left _ then true else false.
Lemma RlebP x y : reflect (Rle x y) (Rleb x y).
Proof. by rewrite /Rleb; case: Rle_dec => h; [left | right]. Qed.
Lemma RltbP x y : reflect (Rlt x y) (Rltb x y).
Proof. by rewrite /Rltb; case: Rlt_dec => h; [left | right]. Qed.

Lemma Rle0D x y : Rleb R0 x -> Rleb R0 y -> Rleb R0 (Rplus x y).
Proof. by move=> /RlebP h /RlebP k; apply/RlebP; lra. Qed.
Lemma Rle0M x y : Rleb R0 x -> Rleb R0 y -> Rleb R0 (Rmult x y).
Proof. by move=> /RlebP h /RlebP k; apply/RlebP; exact: Rmult_le_pos. Qed.
Lemma Rle0_anti x : Rleb R0 x -> Rleb x R0 -> x = R0.
Proof. by move=> /RlebP h /RlebP k; lra. Qed.
Lemma Rsub_ge0 x y : Rleb R0 (Rplus y (Ropp x)) = Rleb x y.
Proof. by apply/RlebP/RlebP => h; lra. Qed.
Lemma Rle_total x y : Rleb x y || Rleb y x.
Proof. by apply/orP; case: (Rle_or_lt x y) => h; [left | right]; apply/RlebP; lra. Qed.
Lemma RnormN x : Rabs (Ropp x) = Rabs x. Proof. exact: Rabs_Ropp. Qed.
Lemma Rge0_norm x : Rleb R0 x -> Rabs x = x.
Proof. by move=> /RlebP h; apply: Rabs_pos_eq. Qed.
Lemma Rlt_def x y : Rltb x y = (y != x) && Rleb x y.
Proof.
apply/RltbP/andP => [h|[/eqP ne /RlebP h]]; last by case: h => // E; case: ne.
by split; [apply/eqP => E; rewrite E in h; exact: Rlt_irrefl h | apply/RlebP; lra].
Qed.

Definition R_leMixin : realLeMixin R_idomainType :=
  RealLeMixin Rle0D Rle0M Rle0_anti Rsub_ge0 (Rle_total R0) RnormN Rge0_norm Rlt_def.
Canonical R_porderType := POrderType ring_display R R_leMixin.
Canonical R_latticeType := LatticeType R R_leMixin.
Canonical R_distrLatticeType := DistrLatticeType R R_leMixin.
Canonical R_orderType := OrderType R Rle_total.
Canonical R_numDomainType := NumDomainType R R_leMixin.
Canonical R_normedZmodType := NormedZmodType R R R_leMixin.
Canonical R_numFieldType := [numFieldType of R].
Canonical R_realDomainType := [realDomainType of R].
Canonical R_realFieldType := [realFieldType of R].

Import GRing.Theory Num.Theory.

Lemma horner_continuity (p : {poly R}) : continuity (fun x => p.[x]%R).
Proof.
elim/poly_ind: p => [|p c IH].
  have -> : (fun x : R => (0 : {poly R}).[x])%R = fct_cte R0.
    by apply: functional_extensionality => x; rewrite horner0.
  by apply: continuity_const => x y.
have -> : (fun x : R => (p * 'X + c%:P).[x])%R = plus_fct (mult_fct (fun x => p.[x])%R id) (fct_cte c).
  by apply: functional_extensionality => x; rewrite hornerMXaddC.
apply: continuity_plus; last by apply: continuity_const => x y.
by apply: continuity_mult => //; exact: derivable_continuous derivable_id.
Qed.

Lemma R_closed : Num.real_closed_axiom R_numDomainType.
Proof.
move=> p a b /RlebP ab /andP[/RlebP pa /RlebP pb].
have [|z [[h1 h2] hz]] := @IVT_cor (fun x => p.[x]%R) a b (horner_continuity p) ab.
  by have := Rmult_le_compat_neg_l _ _ _ pa pb; rewrite Rmult_0_r.
exists z; first by apply/andP; split; apply/RlebP.
exact/eqP.
Qed.

Canonical R_rcfType := RcfType R R_closed.
