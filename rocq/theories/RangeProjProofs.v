(** * The projection keeps exactly the directions above the tolerance. *)
From mathcomp Require Import all_ssreflect all_algebra.
From mathcomp Require Import zify.
From Verif Require Import Base Model Estimator CorrsLoop RangeProj.
Set Implicit Arguments.
Unset Strict Implicit.
Unset Printing Implicit Defensive.
Import Order.TTheory GRing.Theory Num.Theory.
Local Open Scope ring_scope.

Section Spec.
Variables (R : realFieldType) (N : nat).

(** Output of [svd(B0, hermitian=True)]: an orthonormal eigenbasis, sorted by
    decreasing absolute value. *)
Record eigh_spec (B0 U : 'M[R]_N) (S : 'rV[R]_N) : Prop := Eigh {
  eigh_ortho : U^T *m U = 1%:M;
  eigh_dec : exists2 L : 'rV[R]_N, B0 = U *m diag_mx L *m U^T & forall i, S 0 i = `|L 0 i|;
  eigh_sorted : forall i j : 'I_N, (i <= j)%N -> S 0 j <= S 0 i }.

End Spec.

Section Proofs.
Variables (R : realFieldType) (N : nat).
Implicit Types (U : 'M[R]_N) (S : 'rV[R]_N) (tol : R).

Lemma count_prefix n (p : pred 'I_n) : (forall i j : 'I_n, (i <= j)%N -> p j -> p i) ->
  forall i : 'I_n, p i = (i < count p (enum 'I_n))%N.
Proof.
move=> H i; have E (q : pred 'I_n) : count q (enum 'I_n) = (\sum_(j < n) q j)%N.
  by rewrite -sumn_count sumnE big_map big_enum.
have C k : (k <= n)%N -> (\sum_(j < n) (j < k)%N)%N = k.
  move=> kn; rewrite -(big_mkord xpredT (fun j => nat_of_bool (j < k)%N)) (big_cat_nat _ (n := k)) //=.
  rewrite big_nat (eq_bigr (fun=> 1%N)) => [|j /andP[_ ->]] //.
  rewrite -big_nat sum_nat_const_nat muln1 subn0 big_nat big1 ?addn0 // => j /andP[kj _].
  by rewrite ltnNge kj.
apply/idP/idP => [pi|].
  rewrite E; rewrite -[X in (X < _)%N]/(i.+1.-1) prednK //.
  rewrite -{1}(C i.+1 (ltn_ord i)) leq_sum // => j _.
  by rewrite ltnS; case ji: (j <= i)%N => //; rewrite (H j i ji pi).
apply: contraTT => npi; rewrite -leqNgt E -[X in (_ <= X)%N](C i (ltnW (ltn_ord i))) leq_sum // => j _.
by case pj: (p j) => //; rewrite ltnNge; case ij: (i <= j)%N => //; rewrite (H i j ij pj) in npi.
Qed.

Section Given.
Variables (B0 U : 'M[R]_N) (S L : 'rV[R]_N) (tol : R).
Hypotheses (UU : U^T *m U = 1%:M) (BL : B0 = U *m diag_mx L *m U^T)
  (SL : forall i, S 0 i = `|L 0 i|) (sorted : forall i j : 'I_N, (i <= j)%N -> S 0 j <= S 0 i)
  (tol0 : 0 <= tol).
Local Notation r := (count_rank tol S).

Lemma rank_le : (r <= N)%N.
Proof. by rewrite /count_rank; apply: leq_trans (count_size _ _) _; rewrite size_enum_ord. Qed.

Lemma above i : (tol < S 0 i) = (i < r)%N.
Proof.
by apply: (@count_prefix N (fun i => tol < S 0 i)) => a b ab /lt_le_trans; apply; exact: sorted.
Qed.

Definition wid (i : 'I_r) : 'I_N := widen_ord rank_le i.

Lemma first_rowsE : first_rows r U = \matrix_(i, j) U j (wid i).
Proof.
apply/matrixP => i j; rewrite !mxE; case: insubP => [c _ E|].
  by congr (U _ _); apply: val_inj.
by rewrite (leq_trans (ltn_ord i) rank_le).
Qed.

Lemma UU' : U *m U^T = 1%:M.
Proof. exact: mulmx1C. Qed.

Local Notation P := (first_rows r U).

Lemma PP : P *m P^T = 1%:M.
Proof.
apply/matrixP => i j; rewrite first_rowsE !mxE.
have := congr1 (fun M : 'M[R]_N => M (wid i) (wid j)) UU; rewrite !mxE => E.
rewrite (_ : (i == j) = (wid i == wid j)) -?E; last by rewrite -!val_eqE.
by apply: eq_bigr => k _; rewrite !mxE.
Qed.

Definition LP : 'rV[R]_r := \row_i L 0 (wid i).

Lemma PB : P *m B0 = diag_mx LP *m P.
Proof.
have : U^T *m B0 = diag_mx L *m U^T by rewrite BL !mulmxA UU mul1mx.
move=> E; rewrite first_rowsE; apply/matrixP => i j.
have := congr1 (fun M : 'M[R]_N => M (wid i) j) E; rewrite !mul_diag_mx !mxE => {}E.
by rewrite -E; apply: eq_bigr => k _; rewrite !mxE.
Qed.

Lemma PBP : P *m B0 *m P^T = diag_mx LP.
Proof. by rewrite PB -mulmxA PP mulmx1. Qed.

Lemma LP_unit : diag_mx LP \in unitmx.
Proof.
rewrite unitmxE det_diag unitfE; apply/prodf_neq0 => i _; rewrite mxE -normr_gt0 -SL.
by apply: le_lt_trans tol0 _; rewrite above /= ltn_ord.
Qed.

(** The discarded part. *)
Lemma discarded : exists M : 'rV[R]_N,
  [/\ B0 - P^T *m (P *m B0 *m P^T) *m P = U *m diag_mx M *m U^T,
      forall i, `|M 0 i| <= tol
    & forall i, M 0 i = if (i < r)%N then 0 else L 0 i].
Proof.
exists (\row_i if (i < r)%N then 0 else L 0 i); split; last by move=> i; rewrite mxE.
  rewrite PBP BL; apply/matrixP => a b; rewrite !mxE.
  rewrite (eq_bigr (fun k => U a k * L 0 k * U b k)); last first.
    by move=> k _; rewrite mul_mx_diag !mxE.
  rewrite [X in _ - X](eq_bigr (fun k : 'I_r => U a (wid k) * L 0 (wid k) * U b (wid k))); last first.
    by move=> k _; rewrite mul_mx_diag first_rowsE !mxE.
  rewrite [RHS](eq_bigr (fun k => U a k * L 0 k * U b k - (if (k < r)%N then U a k * L 0 k * U b k else 0))); last first.
    by move=> k _; rewrite mul_mx_diag !mxE; case: ifP; rewrite ?subrr ?subr0 ?mulr0 ?mul0r.
  rewrite sumrB; congr (_ - _).
  rewrite -big_mkcond /= (big_ord_narrow rank_le) //.
move=> i; rewrite mxE; case: ifP => [_|ri]; first by rewrite normr0.
by rewrite -SL leNgt above ri.
Qed.

(** Null directions are removed. *)
Lemma null_removed (x : 'cV[R]_N) : B0 *m x = 0 -> P *m x = 0.
Proof.
move=> Bx; have : diag_mx LP *m (P *m x) = 0 by rewrite mulmxA -PB -mulmxA Bx mulmx0.
by move/(congr1 (mulmx (invmx (diag_mx LP)))); rewrite mulKmx ?LP_unit // mulmx0.
Qed.

End Given.

Definition normsq (x : 'rV[R]_N) : R := (x *m x^T) 0 0.

Lemma projection_full (B0 : 'M[R]_N) U S tol dim_x (p : projection R N) :
  eigh_spec B0 U S -> 0 <= tol -> set_range_projection dim_x tol U S = Ok p ->
  let P := p_mat p in let B := P *m B0 *m P^T in
  [/\ P *m P^T = 1%:M, B \in unitmx,
      forall x : 'cV[R]_N, B0 *m x = 0 -> P *m x = 0,
      forall x : 'rV[R]_N, `|(x *m (B0 - P^T *m B *m P) *m x^T) 0 0| <= tol * normsq x
    & (forall i, S 0 i <= tol -> S 0 i = 0) ->
      B0 = P^T *m B *m P /\ forall x : 'cV[R]_N, (P *m x = 0 <-> B0 *m x = 0)].
Proof.
case=> UU [L BL SL] sorted tol0 E.
suff H : p = Proj (first_rows (count_rank tol S) U) \/ (p = Proj 1%:M /\ count_rank tol S = N).
  have [M [EM bM vM]] := discarded UU BL SL sorted tol0.
  case: H => [-> | [-> rN]] /=.
    set P := first_rows _ _ in EM *; split.
    - exact: PP.
    - by rewrite (PBP _ _ UU BL); apply: LP_unit SL sorted tol0.
    - by move=> x; apply: (null_removed UU BL SL sorted tol0).
    - move=> x; rewrite EM; set y := x *m U.
      have -> : x *m (U *m diag_mx M *m U^T) *m x^T = y *m diag_mx M *m y^T.
        by rewrite /y trmx_mul !mulmxA.
      have -> : normsq x = normsq y.
        by rewrite /normsq /y trmx_mul mulmxA -(mulmxA x) UU' // mulmx1.
      rewrite /normsq mul_mx_diag !mxE mulr_sumr; apply: le_trans (ler_norm_sum _ _ _) _.
      apply: ler_sum => k _; rewrite !mxE mulrAC normrM mulrC.
      rewrite -expr2 (ger0_norm (sqr_ge0 _)).
      by apply: ler_wpmul2r (bM k); rewrite sqr_ge0.
    - move=> H; have M0 : diag_mx M = 0.
        apply/matrixP => i j; rewrite !mxE vM; case: ifP => [_|ri]; first by rewrite mul0rn.
        have : S 0 i <= tol by rewrite leNgt (above tol sorted) ri.
        by move/H; rewrite SL => /eqP; rewrite normr_eq0 => /eqP ->; rewrite mul0rn.
      have EB : B0 = P^T *m (P *m B0 *m P^T) *m P.
        by apply/eqP; rewrite -subr_eq0 EM M0 mulmx0 mul0mx.
      split=> // x; split; last exact: (null_removed UU BL SL sorted tol0).
      by move=> Px; rewrite EB -mulmxA Px mulmx0.
  have B0u : B0 \in unitmx.
    rewrite BL !unitmx_mul unitmx_tr; apply/andP; split; last first.
      by have [_ ->] := mulmx1_unit UU.
    have [_ ->] := mulmx1_unit UU; rewrite /= unitmxE det_diag unitfE; apply/prodf_neq0 => i _.
    rewrite -normr_gt0 -SL; apply: le_lt_trans tol0 _.
    by rewrite (above tol sorted) rN ltn_ord.
  rewrite trmx1 !mul1mx !mulmx1; split=> //.
  - by move=> x Bx; rewrite mul1mx -(mulKmx B0u x) Bx mulmx0.
  - move=> x; rewrite subrr mulmx0 mul0mx mxE normr0; apply: mulr_ge0 => //.
    by rewrite /normsq mxE sumr_ge0 // => i _; rewrite mxE -expr2 sqr_ge0.
  - move=> _; split=> // x; rewrite mul1mx; split=> [->|Bx]; first by rewrite mulmx0.
    by rewrite -(mulKmx B0u x) Bx mulmx0.
move: E; rewrite /set_range_projection; case: ltnP => [lt|ge].
  by case: ifP => _ => [[<-]|]; [left | case: ifP => _ // [<-]; left].
by case=> <-; right; split=> //; apply/eqP; rewrite eqn_leq ge rank_le.
Qed.

(** When the call fails: only if every direction is below the tolerance and
    the basis has as many elements as the position has components. *)
Lemma projection_fails dim_x tol U S e :
  set_range_projection dim_x tol U S = Err e <->
  [/\ e = Documented, N = dim_x, (0 < N)%N & forall i, S 0 i <= tol].
Proof.
have r0 : (count_rank tol S == 0%N) <-> forall i, S 0 i <= tol.
  rewrite /count_rank; split=> [/eqP H i|H].
    rewrite leNgt; apply/negP => Hi; move: (mem_enum predT i); rewrite inE => ie.
    have : has (fun i => tol < S 0 i) (enum 'I_N) by apply/hasP; exists i.
    by rewrite has_count H.
  by rewrite -leqn0 leqNgt -has_count; apply/hasPn => i _; rewrite -leNgt.
rewrite /set_range_projection; split.
  case: ltnP => // lt; case: ifP => // /norP[]; rewrite -leqNgt negbK => dN /eqP rd.
  case: ifP => // R0 [<-]; split=> //.
  - by move: rd; rewrite (eqP R0); lia.
  - by move: lt; rewrite (eqP R0).
  - exact/r0.
case=> -> ND N0 /r0 R0; rewrite (eqP R0) N0 -ND ltnn subnn eqxx /=.
by [].
Qed.

End Proofs.

(** ** Witnesses *)
Section Witness.
Variable R : realFieldType.

(** Rank one, in rotated coordinates: eigenvalues 25 and 0. *)
Definition rot : 'M[R]_2 :=
  \matrix_(i, j) (if (i == 0) && (j == 0) then 3%:R / 5%:R
                  else if (i == 1) && (j == 1) then - (3%:R / 5%:R) else 4%:R / 5%:R).
Definition rotS : 'rV[R]_2 := \row_j (if j == 0 then 25%:R else 0).

Lemma rot_spec : eigh_spec (rot *m diag_mx rotS *m rot^T) rot rotS.
Proof.
have f0 : 5%:R != 0 :> R by rewrite pnatr_eq0.
split.
- apply/matrixP => i j; rewrite !mxE !big_ord_recl big_ord0 addr0 !mxE /=.
  have E : (3%:R / 5%:R) * (3%:R / 5%:R) + 4%:R / 5%:R * (4%:R / 5%:R) = 1 :> R.
    by rewrite !mulf_div -mulrDl -!natrM -natrD mulfV ?pnatr_eq0.
  case: i => [[|[|i]] hi] //; case: j => [[|[|j]] hj] //=.
  + by rewrite mulrN mulrC subrr.
  + by rewrite mulNr mulrC subrr.
  + by rewrite mulrNN addrC.
- by exists rotS => // i; rewrite mxE; case: ifP => _; rewrite ?normr0 // normr_nat.
- move=> i j ij; rewrite !mxE; case: eqP => [j0|_]; case: eqP => [i0|ni] //; last by rewrite ler0n.
  by move: ij; rewrite j0 leqn0 => /eqP i0; case: ni; apply: val_inj.
Qed.

Lemma rot_projected : exists p, set_range_projection 1 1 rot rotS = Ok p /\ p_rank p = 1%N.
Proof.
rewrite /set_range_projection /count_rank !enum_ordS /= (_ : enum 'I_0 = [::]) /=; last first.
  by apply: size0nil; rewrite size_enum_ord.
rewrite !mxE /= ltr1n ltr10 /=.
by eexists.
Qed.

(** Finding: a zero basis with two elements and one coordinate is not rejected. *)
Lemma rank_zero_refuted : exists (B0 U : 'M[R]_2) S p,
  [/\ eigh_spec B0 U S, B0 = 0, set_range_projection 1 0 U S = Ok p & p_rank p = 0%N].
Proof.
exists 0, 1%:M, 0.
have E : count_rank (0 : R) (0 : 'rV[R]_2) = 0%N.
  by rewrite /count_rank; apply/eqP; rewrite -leqn0 leqNgt -has_count; apply/hasPn => i _; rewrite mxE ltxx.
exists (Proj (first_rows (count_rank 0 (0 : 'rV[R]_2)) 1%:M)); split=> //; last first.
  by rewrite /set_range_projection E.
split; first by rewrite trmx1 mul1mx.
- by exists 0; rewrite ?raddf0 ?mulmx0 ?mul0mx // => i; rewrite !mxE normr0.
- by move=> i j _; rewrite !mxE.
Qed.

End Witness.
