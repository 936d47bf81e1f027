(** * Karhunen-Loeve noise: concrete kernels. *)
From mathcomp Require Import all_ssreflect all_algebra.
From mathcomp Require Import zify.
From Verif Require Import Base Tactics Noise NoiseProofs PronyWitness.
Set Implicit Arguments.
Unset Strict Implicit.
Unset Printing Implicit Defensive.
Import Order.TTheory GRing.Theory Num.Theory.
Local Open Scope ring_scope.

Section Wit.
Variable R : rcfType.
Notation a2 := (a2 R).

Definition hadamard : 'M[R]_2 := \matrix_(i, j) nth 0 (nth [::] [:: [:: a2; a2]; [:: a2; - a2]] i) j.
Definition row2 (x y : R) : 'rV[R]_2 := \row_j [:: x; y]`_j.

Lemma half_half : (2%:R^-1 : R) + 2%:R^-1 = 1.
Proof. by rewrite [RHS](splitr 1) !mul1r. Qed.

(** The kernel 1, x: eigenvalues 1 + x and 1 - x. *)
Lemma pair_eig (x : R) (C : 'M[R]_2) : (forall i j, C i j = [:: 1; x]`_((i - j) + (j - i))) ->
  orthonormal_eig C (row2 (1 + x) (1 - x)) hadamard.
Proof.
move=> EC; have h2 := half_half; split; apply/matrixP => i j.
  rewrite !mxE !big_ord_recl !big_ord0 !mxE /= !EC /= !addr0.
  case: i => [[|[|i]]] //= ?; case: j => [[|[|j]]] //= ?;
    rewrite ?(mulr0n, mulr1n, mulr0, mul0r, addr0, add0r, mul1r) ?mulrDr ?mulr1 ?mulrN ?mulr1 //.
  - by rewrite mulrC.
  - by rewrite mulrC.
  - by rewrite addrC mulrC.
  - by rewrite !mulNr opprK mulrC addrC.
rewrite !mxE !big_ord_recl big_ord0 !mxE /= addr0.
case: i => [[|[|i]]] //= ?; case: j => [[|[|j]]] //= ?; rewrite ?mulrN ?mulNr ?opprK ?a2E // ?subrr //.
Qed.

(** A kernel whose lag-one value exceeds its variance. *)
Lemma nan_refuted : exists (kernel : seq R) (C : 'M[R]_(size kernel)) lam V,
  [/\ stationary_cov kernel None = Ok C, orthonormal_eig C lam V
    & forall dt w, kl_generate lam V dt None w = Err ZeroDivision].
Proof.
pose kernel : seq R := [:: 1; 2%:R].
have [//|C EC HC] := @stationary_sym R kernel.
exists kernel, C, (row2 (1 + 2%:R) (1 - 2%:R)), hadamard; split=> //; first exact: pair_eig.
move=> dt w; apply: (@kl_nan _ _ _ _ _ _ _ (1 : 'I_2)); last by [].
by rewrite mxE /= subr_lt0 ltr1n.
Qed.

Lemma half_eig : exists (C : 'M[R]_2) lam V,
  [/\ stationary_cov [:: 1; 2%:R^-1] None = Ok C, orthonormal_eig C lam V & forall i, 0 <= lam 0 i].
Proof.
have [//|C EC HC] := @stationary_sym R [:: 1; 2%:R^-1].
exists C, (row2 (1 + 2%:R^-1) (1 - 2%:R^-1)), hadamard; split=> //; first exact: pair_eig.
have h : (2%:R^-1 : R) <= 1 by rewrite invf_le1 ?ler1n ?ltr0n.
by case=> [[|[|i]]] //= ?; rewrite mxE /= ?subr_ge0 // addr_ge0 ?ler01 ?invr_ge0 ?ler0n.
Qed.

(** Equal eigenvalues: unit eigenvectors need not be orthogonal. *)
Definition slanted : 'M[R]_2 := \matrix_(i, j) nth 0 (nth [::] [:: [:: 1; a2]; [:: 0; a2]] i) j.

Lemma slanted_eig (C : 'M[R]_2) : (forall i j, C i j = [:: 1; 0]`_((i - j) + (j - i))) ->
  eig C (row2 1 1) slanted.
Proof.
move=> EC; have a0 : a2 != 0 by apply/negP => /eqP h; have := a2E R; rewrite h mul0r => /esym/eqP; rewrite invr_eq0 pnatr_eq0.
split.
- have -> : C = 1%:M by apply/matrixP => i j; rewrite EC mxE; case: i => [[|[|i]]] //= ?; case: j => [[|[|j]]].
  have -> : diag_mx (row2 1 1) = 1%:M.
    by apply/matrixP => i j; rewrite !mxE; case: i => [[|[|i]]] //= ?; case: j => [[|[|j]]].
  by rewrite mul1mx mulmx1.
- by rewrite unitmxE (expand_det_row _ 1) !big_ord_recl big_ord0 /cofactor !det_mx11 !mxE /= mul0r add0r addr0 expr2 mulrNN !mul1r mulr1 unitfE.
- move=> j; rewrite !big_ord_recl big_ord0 !mxE /= addr0.
  case: j => [[|[|j]]] //= ?; first by rewrite expr1n expr0n addr0.
  by rewrite !expr2 a2E half_half.
Qed.

Lemma slanted_refuted : exists (kernel : seq R) (C : 'M[R]_(size kernel)) lam V (i j : 'I_(size kernel)),
  [/\ stationary_cov kernel None = Ok C, eig C lam V, forall k, 0 <= lam 0 k
    & forall (Omega : Type) (L : (Omega -> R) -> Prop) Ex (w : Omega -> 'cV[R]_(size kernel)),
        expectation L Ex -> white L Ex w ->
        exists2 eta, forall x, kl_generate lam V 1 None (w x) = Ok (eta x)
          & Ex (fun x => (eta x)`_i * (eta x)`_j) <> C i j].
Proof.
pose kernel : seq R := [:: 1; 0].
have [//|C EC HC] := @stationary_sym R kernel.
have l0 (k : 'I_2) : 0 <= row2 1 1 0 k by rewrite mxE; case: k => [[|[|k]]] //= ?; rewrite ler01.
exists kernel, C, (row2 1 1), slanted, 0, 1; split=> //; first exact: slanted_eig.
move=> Omega L Ex w HE Hw.
have [eta He [_ _ H]] := kl_cov_gen HE slanted l0 ler01 (leqnn _ : (odflt 2 None <= 2)%N) Hw.
exists eta => //; have [_ ->] := H 0 1 erefl erefl.
rewrite HC mul1r.
have -> : diag_mx (row2 1 1) = 1%:M.
  by apply/matrixP => i j; rewrite !mxE; case: i => [[|[|i]]] //= ?; case: j => [[|[|j]]].
rewrite mulmx1 !mxE !big_ord_recl big_ord0 !mxE /= mulr0 add0r addr0 a2E.
by move/eqP; rewrite invr_eq0 pnatr_eq0.
Qed.
End Wit.
