(** * Prony series: from the singular value decomposition to the Jacobi matrix. *)
From mathcomp Require Import all_ssreflect all_algebra.
From mathcomp Require Import zify.
From Verif Require Import Base Tactics Prony PronyProofs PronyProofs2.
Set Implicit Arguments.
Unset Strict Implicit.
Unset Printing Implicit Defensive.
Import Order.TTheory GRing.Theory Num.Theory.
Local Open Scope ring_scope.

Section Main.
Variable R : rcfType.
Implicit Types (y s : seq R) (n N : nat).

(** Repeated product, for square matrices of any size. *)
Definition mpow r (A : 'M[R]_r) (k : nat) : 'M[R]_r := iter k (mulmx A) 1%:M.

Lemma mpowE r (A : 'M[R]_r.+1) k : mpow A k = A ^+ k.
Proof. by elim: k => [|k IH] //=; rewrite /mpow /= -/(mpow A k) IH exprS. Qed.

Lemma filtered_sym n (A U Vh : 'M[R]_n.+1) s N : hsvd A U s Vh -> (filtered U s Vh N)^T = filtered U s Vh N.
Proof.
case=> _ _ _ _ [sgn HV _]; apply/matrixP => i j; rewrite !mxE; apply: eq_bigr => k _.
rewrite !HV ![_ * s`_k]mulrC -!mulrA; congr (_ * _).
by rewrite mulrCA [RHS]mulrCA [U j k * _]mulrC.
Qed.

Lemma filtered_full n (A U Vh : 'M[R]_n.+1) s N : hsvd A U s Vh -> (forall k, (N <= k)%N -> s`_k = 0) ->
  filtered U s Vh N = A.
Proof.
case=> _ _ _ _ [sgn _ HA] z; apply/matrixP => i j; rewrite HA mxE big_mkcond /=.
by apply: eq_bigr => k _; case: ltnP => // /z ->; rewrite mulr0 mul0r.
Qed.

Lemma ldl_loop_prefix n (H : 'M[R]_n.+1) thres N l us D us' D' :
  ldl_loop H thres N l us D = Ok (us', D') -> exists w, us' = us ++ w.
Proof.
elim: l us D => [|i l IH] us D /=; first by case=> <- _; exists [::]; rewrite cats0.
case: (orth H _ us) => [t|e] //=; case: ifP => _ /=; last first.
  by case: ifP => _; [case=> <- _; exists [::]; rewrite cats0 | exact: IH].
case: ifP => _ //=; case: ifP => _; first by case=> <- _; exists [:: t]; rewrite cats1.
by move=> /IH[w ->]; exists (t :: w); rewrite cat_rcons.
Qed.

Lemma first_kept n (H : 'M[R]_n.+1) thres N us D : (0 < N)%N -> thres <= `|H 0 0| ->
  ldl_loop H thres N (enum 'I_n.+1) [::] [::] = Ok (us, D) -> us`_0 = delta_mx 0 0.
Proof.
move=> N0 t0; rewrite enum_ordS /=.
have -> : phi_bis (delta_mx 0 0) (delta_mx 0 0) H = H 0 0.
  by rewrite /phi_bis trmx_delta -colE -rowE !mxE.
rewrite t0 N0 /=; case: leqP => _; first by case=> <-.
by move=> /ldl_loop_prefix[w ->].
Qed.

Lemma keep_pos eps n s thres N_keep t N : keep eps n s thres N_keep = Ok (t, N) -> (N <= n)%N.
Proof.
rewrite /keep; case: N_keep => [k|] /=; last by case=> _ <-; exact: geq_minr.
by case: (rd _ _) => //= a [_ <-]; exact: geq_minr.
Qed.

(** The matrix of normalised vectors. *)
Lemma stack_orthonormal n (H : 'M[R]_n.+1) thres us D : H^T = H -> 0 < thres -> kept_ok H thres us D ->
  let dlu := mkseq (fun i => (1 / Num.sqrt `|D`_i|) *: us`_i) (size us) in
  let Q := stack dlu in
  Q *m H *m Q^T = diag_mx (\row_j (map Num.sg D)`_j).
Proof.
move=> Hs t0 K dlu Q; have sdlu : size dlu = size us by rewrite size_mkseq.
have sD : size D = size us by case: K.
have rQ i : row i Q = dlu`_i by rewrite rowK.
apply/matrixP => i j.
have -> : (Q *m H *m Q^T) i j = phi_bis dlu`_i dlu`_j H.
  rewrite -!rQ phiE tr_row -row_mul [LHS]mxE [RHS]mxE.
  by apply: eq_bigr => k _; rewrite [row _ _ _ _]mxE [col _ _ _ _]mxE.
have li : (i < size us)%N by rewrite -sdlu.
have lj : (j < size us)%N by rewrite -sdlu.
rewrite (dlu_orthonormal t0 K li lj) !mxE -val_eqE.
case: (val i =P val j) => [_|_] /=; last by rewrite mulr0n.
by rewrite mulr1n (nth_map 0) ?sD.
Qed.

(** The whole chain. *)
Lemma get_jacobiE eps y U s Vh thres N_keep t N :
  hsvd (hankel y (half_len y)) U s Vh -> keep eps (half_len y) s thres N_keep = Ok (t, N) -> 0 < t ->
  let H := filtered U s Vh N in
  if (N == 0%N) || [forall i, `|H i i| < t] then get_jacobi eps U s Vh thres N_keep = Err ValueError
  else exists dlu sg,
    [/\ ldl_hankel eps U s Vh thres N_keep = Ok (dlu, sg, H),
        (0 < size dlu <= N)%N /\ size sg = size dlu,
        stack dlu *m H *m (stack dlu)^T = diag_mx (\row_j sg`_j),
        forall j, (j < size dlu)%N -> sg`_j = 1 \/ sg`_j = -1
      & t <= `|H 0 0| -> dlu`_0 = (1 / Num.sqrt `|H 0 0|) *: delta_mx 0 0 /\ sg`_0 = Num.sg (H 0 0)].
Proof.
move=> Hsv Ek t0 H; have Hs := filtered_sym N Hsv : H^T = H.
rewrite /get_jacobi /ldl_hankel Ek /= -/H.
case N0: (N == 0%N).
  have H0 : H = 0.
    by apply/matrixP => i j; rewrite !mxE big_pred0 // => k; rewrite (eqP N0).
  rewrite /ldl_rows H0 enum_ordS /= /phi_bis mul0mx mulmx0 mxE normr0 leNgt t0 /= (eqP N0) /=.
  by [].
have {}N0 : (0 < N)%N by rewrite lt0n N0.
have /= := ldl_rowsE Hs t0 N0; case: ifP => _; first by move=> ->.
case=> us [D [dlu [sg [El Er K sus [Ed Es]]]]]; rewrite Er /=.
have sdlu : size dlu = size us by rewrite Ed size_mkseq.
have sD : size D = size us by case: K.
exists dlu, sg; split=> //.
- by rewrite sdlu Es size_map.
- by rewrite Ed Es; apply: stack_orthonormal K.
- move=> j; rewrite sdlu => lj; rewrite Es (nth_map 0) ?sD //.
  have [_ _ _ T] := K; have := T j lj; case: sgrP => //; first by rewrite leNgt t0.
  + by left.
  + by right.
- move=> tH; have E0 := first_kept N0 tH El.
  have s0 : (0 < size us)%N by case/andP: sus.
  have [_ _ ED _] := K; have D0 : D`_0 = H 0 0.
    by rewrite -ED // E0 /phi_bis trmx_delta -colE -rowE !mxE.
  by rewrite Ed Es nth_mkseq // (nth_map 0) ?sD // E0 D0.
Qed.

Lemma jacobi_powers n (y : seq R) r (Q : 'M[R]_(r, n.+1)) (D : 'rV[R]_r) : (2 * n < size y)%N ->
  let H := hankel y n in
  Q *m H *m Q^T = diag_mx D -> (forall i, D 0 i = 1 \/ D 0 i = -1) -> \rank H = r ->
  (forall i, Q i ord_max = 0) ->
  forall i0 : 'I_r, row i0 Q = (1 / Num.sqrt `|y`_0|) *: delta_mx 0 0 -> D 0 i0 = Num.sg y`_0 -> y`_0 != 0 ->
  val i0 = 0%N ->
  forall k, (k <= 2 * n)%N -> mpow (jacobi H Q D) k i0 i0 = y`_k / y`_0.
Proof.
move=> sy H; case: r Q D => [|r] Q D QHQ DD rk top i0; first by case: i0.
move=> Q0 D0 y0 i00 k lk; have Ei : i0 = 0 by apply: val_inj.
rewrite {i0}Ei in Q0 D0 i00 *.
have DD' i : D 0 i * D 0 i = 1 by case: (DD i) => ->; rewrite ?mulr1 ?mulrNN ?mulr1.
have := powers sy QHQ DD' rk top Q0 lk; rewrite mpowE -/H => E.
have s0 : Num.sg y`_0 != 0 by rewrite sgr_eq0.
apply: (mulIf s0); rewrite -{1}D0 E {E} expr_div_n expr1n sqr_sqrtr ?normr_ge0 // mul1r.
rewrite [LHS]mulrC -mulrA; congr (_ * _); apply: (mulfI y0).
by rewrite mulrA mulfV // mul1r {1}[y`_0]numEsg -mulrA mulfV ?mulr1 // normr_eq0.
Qed.

Lemma reproduces eps y U s Vh thres N_keep t N dlu sg H :
  (0 < size y)%N -> hsvd (hankel y (half_len y)) U s Vh ->
  keep eps (half_len y) s thres N_keep = Ok (t, N) -> 0 < t <= `|y`_0| ->
  (forall k, (N <= k)%N -> s`_k = 0) ->
  ldl_hankel eps U s Vh thres N_keep = Ok (dlu, sg, H) ->
  size dlu = \rank (hankel y (half_len y)) ->
  (forall j, (j < size dlu)%N -> dlu`_j 0 ord_max = 0) ->
  exists J : 'M[R]_(size dlu), get_jacobi eps U s Vh thres N_keep = Ok (existT _ _ J) /\
    forall k (i0 : 'I_(size dlu)), (k <= 2 * half_len y)%N -> val i0 = 0%N ->
      mpow J k i0 i0 = y`_k / y`_0.
Proof.
move=> sy Hsv Ek /andP[t0 ty] z El rk top; have [sy2 _] := half_lenP sy.
have EH := filtered_full Hsv z.
exists (jacobi H (stack dlu) (\row_j sg`_j)); split; first by rewrite /get_jacobi El.
have y0 : y`_0 != 0 by rewrite -normr_gt0; exact: lt_le_trans ty.
have H00 : hankel y (half_len y) 0 0 = y`_0 by rewrite hankelE.
have := get_jacobiE Hsv Ek t0; rewrite /= EH.
case: ifP => _; first by rewrite /get_jacobi El.
case=> dlu' [sg' [El' [_ _] QHQ S1 S0]].
have [E1 E2 E3] : [/\ dlu = dlu', sg = sg' & H = hankel y (half_len y)] by move: El; rewrite El' => -[].
subst dlu' sg'.
rewrite {}E3 => k i0 lk i00; have s0 : (0 < size dlu)%N := leq_ltn_trans (leq0n i0) (ltn_ord i0).
have {}S0 : dlu`_0 = (1 / Num.sqrt `|y`_0|) *: delta_mx 0 0 /\ sg`_0 = Num.sg y`_0.
  by rewrite -H00; apply: S0; rewrite H00.
apply: jacobi_powers => //.
- by move=> i; rewrite mxE; exact: S1.
- by move=> i; rewrite mxE; exact: top.
- by rewrite rowK i00; case: S0.
- by rewrite mxE i00; case: S0.
Qed.

End Main.
