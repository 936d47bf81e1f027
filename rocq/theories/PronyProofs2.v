(** * Prony series: the powers of the Jacobi matrix are the data. *)
From mathcomp Require Import all_ssreflect all_algebra.
From mathcomp Require Import zify.
From Verif Require Import Base Tactics Prony PronyProofs.
Set Implicit Arguments.
Unset Strict Implicit.
Unset Printing Implicit Defensive.
Import Order.TTheory GRing.Theory Num.Theory.
Local Open Scope ring_scope.

Section Powers.
Variables (R : rcfType) (n r : nat) (y : seq R).
Hypothesis sy : (2 * n < size y)%N.
Let H := hankel y n.
Variables (Q : 'M[R]_(r.+1, n.+1)) (D : 'rV[R]_r.+1).
Hypothesis QHQ : Q *m H *m Q^T = diag_mx D.
Hypothesis DD : forall i, D 0 i * D 0 i = 1.
Hypothesis rankH : \rank H = r.+1.
Hypothesis Qtop : forall i, Q i ord_max = 0.
Let S := shift R n.
Let J := Q *m (H *m S) *m Q^T *m diag_mx D.
Let Dm := diag_mx D.

Lemma DmDm : Dm *m Dm = 1%:M.
Proof.
apply/matrixP => i j; rewrite mul_diag_mx !mxE; case: (i =P j) => [_|_]; last by rewrite mulr0n mulr0.
by rewrite mulr1n DD.
Qed.

Let Hs : H^T = H. Proof. exact: hankel_sym. Qed.

Lemma H_resolved : H = H *m Q^T *m Dm *m Q *m H.
Proof.
have rQH : \rank (Q *m H) = r.+1.
  apply/eqP; rewrite eqn_leq rank_leq_row /=.
  have rD : \rank Dm = r.+1 by apply/mxrank_unit; case: (mulmx1_unit DmDm).
  by rewrite -[X in (X <= _)%N]rD /Dm -QHQ mxrankM_maxl.
have : (H <= Q *m H)%MS.
  have/mxrank_leqif_sup := submxMl Q H; case=> _.
  by rewrite rQH rankH eqxx.
case/submxP => X EX.
have E1 : Q *m (H *m Q^T *m Dm *m Q *m H) = Q *m H by rewrite !mulmxA QHQ DmDm mul1mx.
rewrite {1}EX -E1 !mulmxA -[X *m Q *m H]mulmxA -EX.
by [].
Qed.

(** Multiplication by the variable, on the left and on the right. *)
Lemma shift_moves m p (a : 'M[R]_(m, n.+1)) (b : 'M[R]_(p, n.+1)) :
  (forall i, a i ord_max = 0) -> (forall i, b i ord_max = 0) ->
  a *m S^T *m H *m b^T = a *m H *m S *m b^T.
Proof.
move=> a0 b0.
have E : forall i j : 'I_n.+1, (i < n)%N -> (j < n)%N -> (S^T *m H) i j = (H *m S) i j.
  move=> i j li lj; rewrite !mxE.
  have li1 : (i.+1 < n.+1)%N by []. 
  have lj1 : (j.+1 < n.+1)%N by [].
  rewrite (bigD1 (Ordinal li1)) //= big1 => [|k]; last first.
    by rewrite -val_eqE /= !mxE => /negPf ->; rewrite mul0r.
  rewrite (bigD1 (Ordinal lj1)) //= big1 => [|k]; last first.
    by rewrite -val_eqE /= !mxE => /negPf ->; rewrite mulr0.
  rewrite !addr0 /H !hankelE // /S !mxE /= !eqxx mul1r mulr1.
  by rewrite addSn addnS.
rewrite -!mulmxA; apply/matrixP => i j; rewrite !mxE.
apply: eq_bigr => k _; case: (ltnP k n) => lk; last first.
  by have -> : k = ord_max by [apply: val_inj => /=; have := ltn_ord k; slia]; rewrite a0 !mul0r.
congr (_ * _); rewrite !mulmxA !mxE; apply: eq_bigr => l _.
case: (ltnP l n) => ll; first by rewrite E.
have -> : l = ord_max by [apply: val_inj => /=; have := ltn_ord l; slia].
by rewrite [b^T _ _]mxE b0 !mulr0.
Qed.

Lemma shift_e (k : nat) (lk : (k < n)%N) (lk0 : (k < n.+1)%N) (lk1 : (k.+1 < n.+1)%N) :
  delta_mx 0 (Ordinal lk0) *m S^T = delta_mx 0 (Ordinal lk1) :> 'rV[R]_n.+1.
Proof.
by apply/rowP => j; rewrite -rowE !mxE /= -val_eqE.
Qed.

(** Elements of the kernel of degree below [n] are stable. *)
Lemma kernel_shift (p : 'rV[R]_n.+1) : p 0 ord_max = 0 -> p *m H = 0 -> p *m S^T *m H = 0.
Proof.
move=> p0 pH; rewrite H_resolved !mulmxA.
by rewrite shift_moves // ?pH ?mul0mx // => i; rewrite ord1.
Qed.

Lemma J_step : J *m Q *m H = Q *m S^T *m H.
Proof.
rewrite [in RHS]H_resolved !mulmxA shift_moves //.
by rewrite /J !mulmxA.
Qed.

Variable alpha : R.
Hypothesis Q0 : row 0 Q = alpha *: delta_mx 0 0.

Fact ord_lt (k : nat) : (k <= n)%N -> (k < n.+1)%N. Proof. by []. Qed.

Lemma J_pow k (lk : (k < n.+1)%N) : row 0 (J ^+ k) *m Q *m H = alpha *: (delta_mx 0 (Ordinal lk) *m H).
Proof.
elim: k lk => [|k IH] lk.
  rewrite expr0 row1 -[_ *m Q]rowE Q0 -scalemxAl; congr (_ *: (delta_mx _ _ *m _)).
have lk0 : (k < n.+1)%N by exact: ltnW.
have lkn : (k < n)%N by [].
have -> : row 0 (J ^+ k.+1) = row 0 (J ^+ k) *m J by rewrite -row_mul exprSr.
have -> : row 0 (J ^+ k) *m J *m Q *m H = row 0 (J ^+ k) *m Q *m S^T *m H.
  by rewrite -[RHS]mulmxA -[row _ _ *m Q *m _]mulmxA [Q *m (_ *m _)]mulmxA -J_step !mulmxA.
set a := _ *m Q.
have p0 : (a - alpha *: delta_mx 0 (Ordinal lk0)) 0 ord_max = 0.
  rewrite /a !mxE big1 ?sub0r => [|i _]; last by rewrite Qtop mulr0.
  have -> : (ord_max == Ordinal lk0) = false by rewrite -val_eqE /= gtn_eqF.
  by rewrite andbF mulr0 oppr0.
have pH : (a - alpha *: delta_mx 0 (Ordinal lk0)) *m H = 0.
  by rewrite mulmxBl /a IH -scalemxAl subrr.
have := kernel_shift p0 pH; rewrite !mulmxBl => /eqP; rewrite subr_eq0 => /eqP ->.
by rewrite -!scalemxAl (shift_e lkn lk0 lk).
Qed.

Lemma J_self_adjoint k : Dm *m (J ^+ k)^T = J ^+ k *m Dm.
Proof.
have EJ : Dm *m J^T = J *m Dm.
  have T : (Q *m (H *m S) *m Q^T)^T = Q *m (H *m S) *m Q^T.
    by rewrite !trmx_mul trmxK Hs !mulmxA shift_moves.
  have tD : Dm^T = Dm by rewrite /Dm tr_diag_mx.
  have -> : J^T = Dm *m (Q *m (H *m S) *m Q^T) by rewrite /J trmx_mul T -/Dm tD.
  rewrite mulmxA DmDm mul1mx /J -[RHS]mulmxA.
  by rewrite DmDm mulmx1.
elim: k => [|k IH]; first by rewrite expr0 trmx1 mulmx1 mul1mx.
have -> : (J ^+ k.+1)^T = (J ^+ k)^T *m J^T by rewrite -trmx_mul exprS.
by rewrite mulmxA IH -mulmxA EJ mulmxA exprSr.
Qed.

Lemma powers k : (k <= 2 * n)%N -> (J ^+ k) 0 0 * D 0 0 = alpha ^+ 2 * y`_k.
Proof.
move=> lk; pose a := minn k n; pose b := (k - a)%N.
have la : (a < n.+1)%N by rewrite /a; lia.
have lb : (b < n.+1)%N by rewrite /b /a; lia.
have Ek : k = (a + b)%N by rewrite /b /a; lia.
have E1 : (row 0 (J ^+ a) *m Q *m H *m (row 0 (J ^+ b) *m Q)^T) 0 0 = (J ^+ k) 0 0 * D 0 0.
  have -> : row 0 (J ^+ a) *m Q *m H *m (row 0 (J ^+ b) *m Q)^T = row 0 (J ^+ a) *m Dm *m (row 0 (J ^+ b))^T.
    by rewrite trmx_mul !mulmxA -[_ *m H *m Q^T]mulmxA -[_ *m Q *m (H *m _)]mulmxA [Q *m (H *m _)]mulmxA QHQ.
  have -> : row 0 (J ^+ a) *m Dm *m (row 0 (J ^+ b))^T = row 0 (J ^+ a) *m col 0 (J ^+ b *m Dm).
    by rewrite tr_row -J_self_adjoint !colE !mulmxA.
  have -> : row 0 (J ^+ a) *m col 0 (J ^+ b *m Dm) = (\matrix_(_ < 1, _ < 1) ((J ^+ k *m Dm) 0 0)).
    apply/matrixP => i j; rewrite !ord1 [RHS]mxE Ek exprD -mulmxE -[in RHS]mulmxA [in RHS]mxE [LHS]mxE.
    by apply: eq_bigr => l _; rewrite [row _ _ _ _]mxE [col _ _ _ _]mxE.
  by rewrite mxE mul_mx_diag mxE.
rewrite -E1 (J_pow la).
have E2 (e w : 'rV[R]_n.+1) : e *m H *m w^T = (w *m H *m e^T)^T.
  by rewrite [in RHS]trmx_mul trmxK trmx_mul Hs mulmxA.
rewrite -scalemxAl E2 (J_pow lb) -scalemxAl linearZ /= scalerA -expr2 mxE; congr (_ * _).
rewrite mxE trmx_delta -rowE -colE mxE mxE /H hankelE //=.
by rewrite [in RHS]Ek addnC.
Qed.

End Powers.
