(** * Proofs for the evaluation of Prony series. *)
From mathcomp Require Import all_ssreflect all_algebra.
From mathcomp Require Import complex.
From Verif Require Import Base Prony PronyEval PronyEvalSpec.
Set Implicit Arguments.
Unset Strict Implicit.
Unset Printing Implicit Defensive.
Import Order.TTheory GRing.Theory Num.Theory.
Local Open Scope ring_scope.
Local Open Scope complex_scope.

(** ** Doubling columns of an invertible matrix *)
Section Double.
Variables (F : fieldType) (m q : nat) (V : 'M[F]_m) (d : 'I_q -> 'I_m) (s : 'rV[F]_q).
Hypotheses (two : 2%:R != 0 :> F) (uV : V \in unitmx) (d_inj : injective d) (s0 : forall r, s 0 r != 0).

Let P : 'M[F]_(m, q) := \matrix_(i, r) (i == d r)%:R.
Definition dbl : 'M[F]_(m + q) := block_mx V (V *m P) (diag_mx s *m P^T) (- diag_mx s).
Let K : 'M[F]_(m + q) := block_mx 1%:M P P^T (- 1%:M).
Let B : 'M[F]_(m + q) := block_mx V 0 0 (diag_mx s).

Lemma dblE : dbl = B *m K.
Proof. by rewrite /B /K mulmx_block !mul0mx !addr0 !add0r !mulmx1 mulmxN mulmx1. Qed.

Lemma PTP : P^T *m P = 1%:M.
Proof.
apply/matrixP => r q'; rewrite !mxE (bigD1 (d r)) //= !mxE eqxx mul1r big1 ?addr0; last first.
  by move=> i ne; rewrite !mxE (negPf ne) mul0r.
by rewrite (inj_eq d_inj).
Qed.

Lemma diagP (f : 'rV[F]_m) : diag_mx f *m P = P *m diag_mx (\row_r f 0 (d r)).
Proof.
apply/matrixP => i r; rewrite mul_diag_mx mul_mx_diag !mxE.
by case: eqP => [->|_]; rewrite ?mulr1 ?mul1r ?mulr0 ?mul0r.
Qed.

Lemma diagPT (f : 'rV[F]_m) : P^T *m diag_mx f = diag_mx (\row_r f 0 (d r)) *m P^T.
Proof. by apply: trmx_inj; rewrite !trmx_mul !tr_diag_mx !trmxK diagP. Qed.

Lemma K_unit : K \in unitmx.
Proof.
pose N : 'M[F]_(m + q) := block_mx (1%:M - 2%:R^-1 *: (P *m P^T)) 0 0 (2%:R^-1 *: 1%:M).
have E : K *m K *m N = 1%:M.
  rewrite /K /N mulmx_block !mulmx1 !mul1mx !mulmxN !mulmx1 !mulNmx !mul1mx opprK PTP subrr.
  rewrite mulmx_block !mulmx0 !mul0mx !addr0 ?subrr !mul0mx !add0r.
  rewrite mulmxBr mulmx1 mulmxDl mul1mx -!scalemxAr.
  rewrite mulmxA -(mulmxA P) PTP mulmx1 mulmx1.
  have h (k l : nat) (X : 'M[F]_(k, l)) : 2%:R^-1 *: (X + X) = X.
    by rewrite -mulr2n -scaler_nat scalerA mulVf // scale1r.
  by rewrite -scalerDr !h addrK -scalar_mx_block.
by have := mulmx1_unit E => -[]; rewrite unitmx_mul => /andP[].
Qed.

Lemma B_inv : B *m block_mx (invmx V) 0 0 (diag_mx (map_mx (@GRing.inv F) s)) = 1%:M.
Proof.
rewrite /B mulmx_block !mulmx0 !mul0mx !addr0 !add0r mulmxV // mulmx_diag.
rewrite [X in diag_mx X](_ : _ = const_mx 1) ?diag_const_mx -?scalar_mx_block //.
by apply/rowP => r; rewrite !mxE divff.
Qed.

Lemma dbl_unit : dbl \in unitmx.
Proof. by rewrite dblE unitmx_mul K_unit andbT; have [] := mulmx1_unit B_inv. Qed.

(** A diagonal matrix with the same entries on the doubled columns. *)
Lemma dbl_diag (f : 'rV[F]_m) :
  dbl *m diag_mx (row_mx f (\row_r f 0 (d r))) *m invmx dbl
  = block_mx (V *m diag_mx f *m invmx V) 0 0 (diag_mx (\row_r f 0 (d r))).
Proof.
set fd := \row_r f 0 (d r).
have uB : B \in unitmx by have [] := mulmx1_unit B_inv.
have KD : K *m diag_mx (row_mx f fd) = diag_mx (row_mx f fd) *m K.
  rewrite diag_mx_row /K !mulmx_block !mul0mx !mulmx0 !addr0 !add0r !mul1mx !mulmx1 diagPT diagP.
  by rewrite mulNmx mul1mx mulmxN mulmx1.
have BD : B *m diag_mx (row_mx f fd) = block_mx (V *m diag_mx f *m invmx V) 0 0 (diag_mx fd) *m B.
  rewrite diag_mx_row /B !mulmx_block !mul0mx !mulmx0 !addr0 !add0r mulmxKV //.
  by rewrite diag_mxC.
apply: (canLR (mulmxK dbl_unit)); rewrite dblE -mulmxA KD mulmxA BD -mulmxA //.
Qed.
End Double.

(** ** The logarithm is a real matrix *)
Section Real.
Variable R : rcfType.
Local Notation C := R[i].
Local Notation Re := (@complex.Re R).
Local Notation Im := (@complex.Im R).
Local Notation cj := (map_mx (@conjc R)).
Local Notation toC := (map_mx (real_complex R)).

Lemma conj_mxM a b c (X : 'M[C]_(a, b)) (Y : 'M[C]_(b, c)) : cj (X *m Y) = cj X *m cj Y.
Proof. exact: map_mxM. Qed.

Lemma conj_toC a b (X : 'M[R]_(a, b)) : cj (toC X) = toC X.
Proof. by apply/matrixP => i j; rewrite !mxE conjc_real. Qed.

Lemma real_mx a b (X : 'M[C]_(a, b)) : cj X = X -> toC (map_mx Re X) = X.
Proof.
move=> h; apply/matrixP => i j; have /matrixP/(_ i j) := h; rewrite !mxE.
case: (X i j) => x y /= [E]; congr (_ +i* _).
have : y *+ 2 == 0 by rewrite mulr2n -{1}E addNr.
by rewrite mulrn_eq0 /= => /eqP.
Qed.

Lemma negrealJ (z : C) : negreal z^* = negreal z.
Proof. by case: z => a b; rewrite /negreal /= oppr_eq0. Qed.

Variables (m q : nat) (J : 'M[R]_m) (V : 'M[C]_m) (lamb l : 'rV[C]_m) (d : 'I_q -> 'I_m) (s : 'rV[C]_q).
Hypotheses (uV : V \in unitmx) (d_inj : injective d) (s0 : forall r, s 0 r != 0).
Hypothesis JV : toC J *m V = V *m diag_mx lamb.
Hypothesis dP : forall j, negreal (lamb 0 j) <-> exists r, j = d r.
Hypothesis Vreal : forall i r, (V i (d r))^* = V i (d r).
Hypothesis sconj : forall r, (s 0 r)^* = - s 0 r.
Hypothesis lconj : forall i j, ~~ negreal (lamb 0 j) -> lamb 0 i = (lamb 0 j)^* -> l 0 i = (l 0 j)^*.

Local Notation W := (dbl V d s).
Let P : 'M[C]_(m, q) := \matrix_(i, r) (i == d r)%:R.
Let S : 'M[C]_m := invmx V *m cj V.
Let Y : 'M[C]_m := S - P *m P^T.

Let two : 2%:R != 0 :> C.
Proof. by rewrite pnatr_eq0. Qed.

Lemma VS : V *m S = cj V.
Proof. by rewrite /S mulKVmx. Qed.

Lemma SP : S *m P = P.
Proof.
have E : cj V *m P = V *m P.
  apply/matrixP => i r; rewrite !mxE; apply: eq_bigr => k _; rewrite !mxE.
  by case: eqP => [->|_]; rewrite ?mulr0 // Vreal.
by rewrite /S -mulmxA E mulKmx.
Qed.

Lemma cjP : cj P = P.
Proof. by apply/matrixP => i r; rewrite !mxE conjc_nat. Qed.

Lemma Slamb i j : S i j != 0 -> lamb 0 i = (lamb 0 j)^*.
Proof.
move=> nz.
have E : diag_mx lamb *m S = S *m diag_mx (cj lamb).
  have := congr1 cj JV; rewrite !conj_mxM conj_toC map_diag_mx -VS mulmxA JV -!mulmxA => /(congr1 (mulmx (invmx V))).
  by rewrite !mulKmx.
have /matrixP/(_ i j) := E; rewrite mul_diag_mx mul_mx_diag mxE [RHS]mxE [cj _ _ _]mxE => /eqP.
by rewrite mulrC -subr_eq0 -mulrBr mulf_eq0 (negPf nz) /= subr_eq0 => /eqP.
Qed.

Lemma PPT i j : (P *m P^T) i j = ((i == j) && negreal (lamb 0 j))%:R.
Proof.
rewrite mxE; case: (boolP (negreal _)) => [/dP[r ->]|n]; last first.
  rewrite andbF big1 // => r _; rewrite !mxE.
  by case: (j =P d r) => [jd|_]; rewrite ?mulr0 //; case/negP: n; apply/dP; exists r.
rewrite andbT (bigD1 r) //= !mxE eqxx mulr1 big1 ?addr0 // => r' ne; rewrite !mxE.
by rewrite (inj_eq d_inj) [r == _]eq_sym (negPf ne) mulr0.
Qed.

Lemma Ynz i j : Y i j != 0 -> [/\ ~~ negreal (lamb 0 i), ~~ negreal (lamb 0 j) & lamb 0 i = (lamb 0 j)^*].
Proof.
rewrite mxE [(- (P *m P^T)) _ _]mxE PPT; case: (boolP (negreal (lamb 0 j))) => [/dP[r ->]|n].
  have -> : S i (d r) = (S *m P) i r.
    by rewrite [RHS]mxE (bigD1 (d r)) //= [P _ _]mxE eqxx mulr1 big1 ?addr0 // => k ne; rewrite [P _ _]mxE (negPf ne) mulr0.
  by rewrite SP mxE andbT subrr eqxx.
by rewrite andbF subr0 => /Slamb E; split=> //; rewrite E negrealJ.
Qed.

Let T : 'M[C]_(m + q) := block_mx Y P P^T 0.
Let L : 'rV[C]_(m + q) := row_mx l (\row_r (l 0 (d r))^*).

Lemma PTY : P^T *m Y = 0.
Proof.
apply/matrixP => r j; rewrite mxE (bigD1 (d r)) //= [P^T _ _]mxE [P _ _]mxE eqxx mul1r big1; last first.
  by move=> k ne; rewrite [P^T _ _]mxE [P _ _]mxE (negPf ne) mul0r.
rewrite addr0 [RHS]mxE; apply/eqP; apply/negPn/negP => /Ynz[/negP ni _ _].
by apply: ni; apply/dP; exists r.
Qed.

Lemma cjW : cj W = W *m T.
Proof.
rewrite /dbl -/P /T mulmx_block map_block_mx !mulmx0 !addr0.
rewrite -!mulmxA PTY PTP // mulmx0 add0r mulmx1 conj_mxM cjP -VS -[V *m S *m P]mulmxA SP.
rewrite -mulmxDr /Y subrK conj_mxM -map_trmx cjP map_mxN map_diag_mx.
rewrite [map_mx _ s](_ : _ = - s); last by apply/rowP => r; rewrite !mxE; exact: sconj.
by rewrite [diag_mx (- s)]raddfN !mulNmx opprK.
Qed.

Lemma LT : diag_mx L *m T = T *m diag_mx (cj L).
Proof.
have -> : cj L = row_mx (cj l) (\row_r l 0 (d r)).
  by rewrite map_row_mx; congr row_mx; apply/rowP => r; rewrite !mxE conjcK.
rewrite !diag_mx_row /T !mulmx_block !mul0mx !mulmx0 !addr0 !add0r; congr block_mx.
- apply/matrixP => i j; rewrite mul_diag_mx mul_mx_diag mxE [RHS]mxE.
  case: (eqVneq (Y i j) 0) => [->|/Ynz[_ nj E]]; first by rewrite mulr0 mul0r.
  by rewrite (lconj nj E) [cj l _ _]mxE mulrC.
- exact: diagP.
rewrite diagPT; congr (diag_mx _ *m _); by apply/rowP => r; rewrite !mxE.
Qed.

Lemma log_real : toC (map_mx Re (W *m diag_mx L *m invmx W)) = W *m diag_mx L *m invmx W.
Proof.
apply: real_mx; have uW := dbl_unit two uV d_inj s0.
set A := (X in _ = X); have AW : A *m W = W *m diag_mx L by rewrite /A mulmxKV.
have ucW : cj W \in unitmx by rewrite map_unitmx.
have E : cj A *m cj W = A *m cj W.
  by rewrite -conj_mxM AW conj_mxM map_diag_mx cjW -mulmxA -LT mulmxA -AW mulmxA.
by have := congr1 (mulmx^~ (invmx (cj W))) E; rewrite !mulmxK.
Qed.
End Real.
