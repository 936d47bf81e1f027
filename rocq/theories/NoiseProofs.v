(** * Covariance matrix and Karhunen-Loeve noise: lemmas. *)
From mathcomp Require Import all_ssreflect all_algebra.
From mathcomp Require Import zify.
From Verif Require Import Base Tactics Noise.
Set Implicit Arguments.
Unset Strict Implicit.
Unset Printing Implicit Defensive.
Import Order.TTheory GRing.Theory Num.Theory.
Local Open Scope ring_scope.

Section Spec.
Variable R : rcfType.

(** A space of integrable random variables with its expectation. *)
Definition expectation (Omega : Type) (L : (Omega -> R) -> Prop) (Ex : (Omega -> R) -> R) : Prop :=
  [/\ forall f g, L f -> L g -> L (fun x => f x + g x) /\ Ex (fun x => f x + g x) = Ex f + Ex g,
      forall c f, L f -> L (fun x => c * f x) /\ Ex (fun x => c * f x) = c * Ex f,
      L (fun _ => 0)
    & forall f g, (forall x, f x = g x) -> L f -> L g /\ Ex f = Ex g].

(** Centred white noise of unit variance. *)
Definition white (Omega : Type) (L : (Omega -> R) -> Prop) (Ex : (Omega -> R) -> R) n (w : Omega -> 'cV[R]_n) : Prop :=
  forall i, [/\ L (fun x => w x i 0), Ex (fun x => w x i 0) = 0
    & forall j, L (fun x => w x i 0 * w x j 0) /\ Ex (fun x => w x i 0 * w x j 0) = (i == j)%:R].

(** What [np.linalg.eig] promises: eigenvectors of unit length, columns of an invertible matrix. *)
Definition eig n (A : 'M[R]_n) (lam : 'rV[R]_n) (V : 'M[R]_n) : Prop :=
  [/\ A *m V = V *m diag_mx lam, V \in unitmx & forall j, \sum_i V i j ^+ 2 = 1].

(** An orthonormal eigendecomposition. *)
Definition orthonormal_eig n (A : 'M[R]_n) (lam : 'rV[R]_n) (V : 'M[R]_n) : Prop :=
  A *m V = V *m diag_mx lam /\ V^T *m V = 1%:M.
End Spec.

Section Cov.
Variable R : rcfType.
Implicit Types (kernel b ks : seq R).

Lemma cov_columnE N ks n : (0 < n < N)%N -> size ks = (2 * N).-1 ->
  cov_column N ks n = Ok (drop (N - n - 1) (take (size ks - n) ks)).
Proof.
move=> /andP[n0 nN] sk; rewrite /cov_column ifT // size_drop size_takel; last by slia.
by rewrite sk; apply/eqP; slia.
Qed.

Lemma mapM_Ok A B (f : A -> res B) (g : A -> B) (l : seq A) : (forall x, List.In x l -> f x = Ok (g x)) ->
  mapM f l = Ok (map g l).
Proof.
elim: l => //= x l IH H; rewrite (H x) /=; last by left.
by rewrite IH // => y ly; apply: H; right.
Qed.

Lemma In_iota m n x : List.In x (iota m n) -> (m <= x < m + n)%N.
Proof. by elim: n m => //= n IH m [<-|/IH]; lia. Qed.

Lemma stationary_gen kernel b : (0 < size kernel)%N -> size b = (size kernel).-1 ->
  forall C0 : option (seq R), (if C0 is Some b' then b' else rev (drop 1 kernel)) = b ->
  exists2 C, stationary_cov kernel C0 = Ok C &
    forall i j, C i j = if (j <= i)%N then kernel`_(i - j) else b`_((size kernel).-1 - (j - i)).
Proof.
move=> N0 sb C0 EC; rewrite /stationary_cov EC (gtn_eqF N0).
set N := size kernel in N0 sb *; set ks := b ++ kernel.
have sk : size ks = (2 * N).-1 by rewrite size_cat sb -/N; slia.
rewrite (@mapM_Ok _ _ _ (fun n => drop (N - n - 1) (take (size ks - n) ks))); last first.
  by move=> n /In_iota ln; rewrite cov_columnE //; slia.
rewrite /=; eexists; first by reflexivity.
move=> i j; rewrite mxE; case: (posnP j) => [->|j0] /=; first by rewrite subn0.
have lj := ltn_ord j; have li := ltn_ord i; rewrite -(prednK j0) /= (nth_map 0%N) ?size_iota; last by rewrite -/N; slia.
rewrite nth_iota; last by rewrite -/N; slia.
rewrite add1n (prednK j0) nth_drop nth_take; last by rewrite sk; slia.
rewrite nth_cat sb; case: (leqP j i) => ji.
  by rewrite ifF; [congr nth; slia | apply/negbTE; slia].
by rewrite ifT; [congr nth; slia | slia].
Qed.

Lemma stationary_sym kernel : (0 < size kernel)%N ->
  exists2 C, stationary_cov kernel None = Ok C & forall i j, C i j = kernel`_((i - j) + (j - i)).
Proof.
move=> N0; have sr : size (rev (drop 1 kernel)) = (size kernel).-1 by rewrite size_rev size_drop subn1.
have [C -> E] := stationary_gen N0 sr (C0 := None) erefl; exists C => // i j; rewrite E.
have li := ltn_ord i; have lj := ltn_ord j.
case: (leqP j i) => ji; first by congr nth; slia.
rewrite nth_rev; last by rewrite size_drop subn1; slia.
by rewrite size_drop nth_drop; congr nth; slia.
Qed.

Lemma stationary_empty (ob : option (seq R)) : stationary_cov ([::] : seq R) ob = Err OutOfBounds.
Proof. by []. Qed.
End Cov.

Section KL.
Variable R : rcfType.
Variables (Omega : Type) (L : (Omega -> R) -> Prop) (Ex : (Omega -> R) -> R).
Hypothesis HE : expectation L Ex.

Lemma Ex_sum (I : Type) (r : seq I) (F : I -> Omega -> R) : (forall i, L (F i)) ->
  L (fun x => \sum_(i <- r) F i x) /\ Ex (fun x => \sum_(i <- r) F i x) = \sum_(i <- r) Ex (F i).
Proof.
have [Hadd Hscal H0 Hext] := HE; move=> LF; elim: r => [|i r [IH1 IH2]].
  have [l e] := Hext (fun _ => 0) (fun x => \sum_(i <- [::]) F i x) (fun x => esym (big_nil _ _ _ _)) H0.
  split=> //; rewrite -e big_nil.
  have [l0 e0] := Hscal 0 _ H0.
  by have [_ ->] := Hext (fun _ => 0) (fun _ => 0 * 0) (fun _ => esym (mulr0 0)) H0; rewrite e0 mul0r.
have [l e] := Hadd _ _ (LF i) IH1.
have [l' e'] := Hext _ (fun x => \sum_(k <- i :: r) F k x) (fun x => esym (big_cons _ _ _ _ _ _)) l.
by split=> //; rewrite -e' e IH2 big_cons.
Qed.

Lemma Ex_scal c f : L f -> L (fun x => c * f x) /\ Ex (fun x => c * f x) = c * Ex f.
Proof. by have [_ H _ _] := HE => /(H c). Qed.

Lemma Ex_ext f g : (forall x, f x = g x) -> L f -> L g /\ Ex f = Ex g.
Proof. by have [_ _ _] := HE; apply. Qed.

(** Covariance of a linear image of white noise. *)
Lemma linear_cov m n (B : 'M[R]_(m, n)) (w : Omega -> 'cV[R]_n) : white L Ex w ->
  (forall i, L (fun x => (B *m w x) i 0) /\ Ex (fun x => (B *m w x) i 0) = 0)
  /\ forall i j, L (fun x => (B *m w x) i 0 * (B *m w x) j 0)
       /\ Ex (fun x => (B *m w x) i 0 * (B *m w x) j 0) = (B *m B^T) i j.
Proof.
move=> Hw; split=> [i|i j].
  have LF k : L (fun x => B i k * w x k 0) by apply: (Ex_scal _ _).1; case: (Hw k).
  have [l e] := Ex_sum (index_enum _) LF.
  have [l' e'] := @Ex_ext _ (fun x => (B *m w x) i 0) (fun x => esym (mxE _ _ i 0)) l; split=> //.
  rewrite -e' e big1 // => k _; have [lw ew _] := Hw k.
  by rewrite (Ex_scal _ lw).2 ew mulr0.
have LF k q : L (fun x => B i k * B j q * (w x k 0 * w x q 0)).
  by apply: (Ex_scal _ _).1; have [_ _ H] := Hw k; case: (H q).
have LG k := (Ex_sum (index_enum _) (LF k)).1.
have [l e] := Ex_sum (index_enum _) LG.
have E x : \sum_k \sum_q B i k * B j q * (w x k 0 * w x q 0) = (B *m w x) i 0 * (B *m w x) j 0.
  rewrite ![(B *m w x) _ _]mxE mulr_suml; apply: eq_bigr => k _; rewrite mulr_sumr; apply: eq_bigr => q _.
  by rewrite !mulrA; congr (_ * _); rewrite -!mulrA; congr (_ * _); rewrite mulrC.
have [l' e'] := Ex_ext E l; split=> //; rewrite -e' e [RHS]mxE; apply: eq_bigr => k _.
rewrite (Ex_sum (index_enum _) (LF k)).2 (bigD1 k) //= big1 ?addr0; last first.
  move=> q qk; have [_ _ H] := Hw k; have [lw ew] := H q.
  by rewrite (Ex_scal _ lw).2 ew eq_sym (negPf qk) mulr0.
have [_ _ H] := Hw k; have [lw ew] := H k.
by rewrite (Ex_scal _ lw).2 ew eqxx mulr1 [B^T _ _]mxE.
Qed.

Lemma kl_ok n (lam : 'rV[R]_n) V dt len w : (forall i, 0 <= lam 0 i) -> 0 <= dt -> (odflt n len <= n)%N ->
  exists2 s, kl_generate lam V dt len w = Ok s &
    size s = odflt n len /\
    forall i : 'I_n, (i < odflt n len)%N ->
      s`_i = (Num.sqrt dt *: (V *m diag_mx (\row_i Num.sqrt (lam 0 i))) *m w) i 0.
Proof.
move=> l0 d0 ln; rewrite /kl_generate.
have -> : (if len is Some l then l else n) = odflt n len by case: len {ln}.
rewrite ltnNge ln /= ltNge d0 /= orbF ifF; last by apply/negbTE; rewrite negb_exists; apply/forallP => i; rewrite -leNgt.
eexists; first by reflexivity.
have sz : size [seq (V *m diag_mx (\row_i0 Num.sqrt (lam 0 i0)) *m w) i 0 | i <- enum 'I_n] = n.
  by rewrite size_map size_enum_ord.
split=> [|i li]; first by rewrite size_map size_takel ?sz.
rewrite (nth_map 0) ?size_takel ?sz // nth_take // (nth_map i) ?size_enum_ord //.
by rewrite nth_ord_enum -scalemxAl [RHS]mxE mulrC.
Qed.

Lemma kl_cov_gen n (V : 'M[R]_n) (lam : 'rV[R]_n) dt len (w : Omega -> 'cV[R]_n) :
  (forall i, 0 <= lam 0 i) -> 0 <= dt -> (odflt n len <= n)%N -> white L Ex w ->
  exists2 eta : Omega -> seq R, forall x, kl_generate lam V dt len (w x) = Ok (eta x) &
    [/\ forall x, size (eta x) = odflt n len,
        forall i : 'I_n, (i < odflt n len)%N -> L (fun x => (eta x)`_i) /\ Ex (fun x => (eta x)`_i) = 0
      & forall i j : 'I_n, (i < odflt n len)%N -> (j < odflt n len)%N ->
          L (fun x => (eta x)`_i * (eta x)`_j) /\
          Ex (fun x => (eta x)`_i * (eta x)`_j) = dt * (V *m diag_mx lam *m V^T) i j].
Proof.
move=> l0 d0 ln Hw.
pose eta x := if kl_generate lam V dt len (w x) is Ok s then s else [::].
have Heta x : kl_generate lam V dt len (w x) = Ok (eta x).
  by rewrite /eta; have [s -> _] := kl_ok V (w x) l0 d0 ln.
set B := Num.sqrt dt *: (V *m diag_mx (\row_i Num.sqrt (lam 0 i))).
have He x : size (eta x) = odflt n len /\ forall i : 'I_n, (i < odflt n len)%N -> (eta x)`_i = (B *m w x) i 0.
  by have [s E] := kl_ok V (w x) l0 d0 ln; move: (Heta x); rewrite E => -[->].
have BB : B *m B^T = dt *: (V *m diag_mx lam *m V^T).
  rewrite /B linearZ /= -scalemxAl -scalemxAr scalerA -expr2 sqr_sqrtr //; congr (_ *: _).
  have -> : diag_mx lam = diag_mx (\row_i Num.sqrt (lam 0 i)) *m diag_mx (\row_i Num.sqrt (lam 0 i)).
    by rewrite mulmx_diag; congr diag_mx; apply/rowP => j; rewrite !mxE -expr2 sqr_sqrtr.
  by rewrite trmx_mul tr_diag_mx !mulmxA.
have [H1 H2] := linear_cov B Hw.
exists eta => //; split=> [x|i li|i j li lj]; first by case: (He x).
  have [l e] := H1 i.
  have [l' e'] := @Ex_ext _ (fun x => (eta x)`_i) (fun x => esym ((He x).2 i li)) l.
  by split=> //; rewrite -e'.
have [l e] := H2 i j.
have [l' e'] := @Ex_ext _ (fun x => (eta x)`_i * (eta x)`_j)
  (fun x => esym (congr2 *%R ((He x).2 i li) ((He x).2 j lj))) l.
by split=> //; rewrite -e' e BB [LHS]mxE.
Qed.

Lemma kl_covariance n (C V : 'M[R]_n) lam dt len (w : Omega -> 'cV[R]_n) :
  orthonormal_eig C lam V -> (forall i, 0 <= lam 0 i) -> 0 <= dt -> (odflt n len <= n)%N -> white L Ex w ->
  exists2 eta : Omega -> seq R, forall x, kl_generate lam V dt len (w x) = Ok (eta x) &
    [/\ forall x, size (eta x) = odflt n len,
        forall i : 'I_n, (i < odflt n len)%N -> L (fun x => (eta x)`_i) /\ Ex (fun x => (eta x)`_i) = 0
      & forall i j : 'I_n, (i < odflt n len)%N -> (j < odflt n len)%N ->
          L (fun x => (eta x)`_i * (eta x)`_j) /\ Ex (fun x => (eta x)`_i * (eta x)`_j) = dt * C i j].
Proof.
move=> [CV VV] l0 d0 ln Hw; have [eta He [H1 H2 H3]] := kl_cov_gen V l0 d0 ln Hw.
exists eta => //; split=> // i j li lj; have [l ->] := H3 i j li lj; split=> //.
by rewrite -CV -mulmxA (mulmx1C VV) mulmx1.
Qed.

(** With negative eigenvalues no noise can have that covariance. *)
Lemma no_noise n (C V : 'M[R]_n) lam dt (eta : Omega -> 'cV[R]_n) i :
  orthonormal_eig C lam V -> lam 0 i < 0 -> 0 < dt ->
  (forall f, L f -> (forall x, 0 <= f x) -> 0 <= Ex f) ->
  ~ (forall k j, L (fun x => eta x k 0 * eta x j 0) /\ Ex (fun x => eta x k 0 * eta x j 0) = dt * C k j).
Proof.
move=> [CV VV] li d0 pos H.
pose T k j x := V k i * V j i * (eta x k 0 * eta x j 0).
have LT k j : L (T k j) by apply: (Ex_scal _ _).1; case: (H k j).
have LG k := (Ex_sum (index_enum _) (LT k)).1.
have [l e] := Ex_sum (index_enum _) LG.
have E x : \sum_k \sum_j T k j x = (\sum_k V k i * eta x k 0) ^+ 2.
  rewrite expr2 mulr_suml; apply: eq_bigr => k _; rewrite mulr_sumr; apply: eq_bigr => j _.
  by rewrite /T !mulrA; congr (_ * _); rewrite -!mulrA; congr (_ * _); rewrite mulrC.
have [l' e'] := Ex_ext E l.
have := pos _ l' (fun x => sqr_ge0 _); rewrite -e' e.
have -> : \sum_k Ex (fun x => \sum_j T k j x) = dt * (V^T *m C *m V) i i.
  rewrite -mulmxA [X in _ * X]mxE mulr_sumr; apply: eq_bigr => k _.
  rewrite (Ex_sum (index_enum _) (LT k)).2 [(C *m V) k i]mxE !mulr_sumr; apply: eq_bigr => j _.
  have [lk ek] := H k j; rewrite (Ex_scal _ lk).2 ek [V^T _ _]mxE.
  by rewrite mulrC -!mulrA; congr (_ * _); rewrite mulrCA; congr (_ * _); rewrite mulrC.
rewrite -mulmxA CV mulmxA VV mul1mx mxE eqxx mulr1n => h.
by move: h; rewrite pmulr_rge0 // leNgt li.
Qed.

Lemma kl_too_long n (lam : 'rV[R]_n) V dt len w : (n < len)%N -> kl_generate lam V dt (Some len) w = Err ValueError.
Proof. by rewrite /kl_generate => ->. Qed.

Lemma kl_nan n (lam : 'rV[R]_n) V dt len w i : lam 0 i < 0 -> (odflt n len <= n)%N ->
  kl_generate lam V dt len w = Err ZeroDivision.
Proof.
move=> li ln; rewrite /kl_generate.
have -> : (if len is Some l then l else n) = odflt n len by case: len {ln}.
by rewrite ltnNge ln /= ifT //; apply/orP; left; apply/existsP; exists i.
Qed.
End KL.

(** ** Independent signs are white noise: the hypotheses are met. *)
Section Signs.
Variables (R : rcfType) (n : nat).
Let Om := {ffun 'I_n -> bool}.
Definition sgn (b : bool) : R := if b then 1 else -1.
Definition signs (x : Om) : 'cV[R]_n := \col_i sgn (x i).
Definition mean (f : Om -> R) : R := (\sum_x f x) / #|{: Om}|%:R.
Definition flip (i : 'I_n) (x : Om) : Om := [ffun j => if j == i then ~~ x j else x j].

Lemma card_Om : #|{: Om}|%:R != 0 :> R.
Proof. by rewrite pnatr_eq0 -lt0n; apply/card_gt0P; exists [ffun => true]. Qed.

Lemma mean_expectation : expectation (fun _ : Om -> R => True) mean.
Proof.
split=> // [f g _ _|c f _|f g E _]; split=> //; rewrite /mean.
- by rewrite big_split mulrDl.
- by rewrite -mulr_sumr mulrA.
- by congr (_ / _); apply: eq_bigr.
Qed.

Lemma flipK i : involutive (flip i).
Proof. by move=> x; apply/ffunP => j; rewrite !ffunE; case: eqP => // _; rewrite negbK. Qed.

Lemma mean_odd (f : Om -> R) i : (forall x, f (flip i x) = - f x) -> mean f = 0.
Proof.
move=> H; rewrite /mean; suff -> : \sum_x f x = 0 by rewrite mul0r.
have h := inv_inj (flipK i); apply/eqP; have : (\sum_x f x) *+ 2 == 0.
  by rewrite mulr2n {1}(reindex_inj h) -big_split /= big1 // => x _; rewrite H addNr.
by rewrite mulrn_eq0.
Qed.

Lemma sgn_neg b : sgn (~~ b) = - sgn b.
Proof. by case: b; rewrite /sgn ?opprK. Qed.

Lemma signs_white : white (fun _ => True) mean signs.
Proof.
move=> i; split=> // [|j]; first by apply: (@mean_odd _ i) => x; rewrite !mxE ffunE eqxx sgn_neg.
split=> //; case: (i =P j) => [->|/eqP ij].
  rewrite /mean (eq_bigr (fun _ => 1)) => [|x _]; last by rewrite mxE /sgn; case: (x j); rewrite ?mul1r // mulrNN mul1r.
  by rewrite sumr_const mulfV // card_Om.
apply: (@mean_odd _ i) => x; rewrite !mxE !ffunE eqxx sgn_neg.
by rewrite eq_sym (negPf ij) mulNr.
Qed.
End Signs.
