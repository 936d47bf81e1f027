(** * Prony series: concrete series. *)
From mathcomp Require Import all_ssreflect all_algebra.
From mathcomp Require Import zify.
From Verif Require Import Base Tactics Prony PronyProofs PronyProofs2 PronyProofs3.
Set Implicit Arguments.
Unset Strict Implicit.
Unset Printing Implicit Defensive.
Import Order.TTheory GRing.Theory Num.Theory.
Local Open Scope ring_scope.

Section Wit.
Variable R : rcfType.

Lemma phi_delta n (H : 'M[R]_n.+1) i j : phi_bis (delta_mx 0 i) (delta_mx 0 j) H = H i j.
Proof. by rewrite /phi_bis trmx_delta -colE -rowE !mxE. Qed.

(** A square of a diagonal decomposition: identity eigenvectors. *)
Lemma hsvd_diag n (s : seq R) : size s = n.+1 -> sorted >=%R s -> (forall i, 0 <= s`_i) ->
  hsvd (diag_mx (\row_(j < n.+1) s`_j)) 1%:M s 1%:M.
Proof.
move=> ss so s0; split=> //; first by rewrite trmx1 mulmx1.
exists (fun=> 1) => [k j|i j]; first by rewrite !mxE mul1r eq_sym.
rewrite mxE (bigD1 i) //= big1 => [|k /negPf ki]; last by rewrite mxE eq_sym ki !mul0r.
by rewrite !mxE eqxx mul1r addr0; case: eqP => [->|_]; rewrite ?mulr1 ?mulr1n ?mulr0 ?mulr0n.
Qed.

(** *** An alternating series of two exponentials, 1 0 1 0 1. *)
Definition alt : seq R := [:: 1; 0; 1; 0; 1].
Definition a2 : R := (Num.sqrt 2%:R)^-1.
Lemma a2E : a2 * a2 = 2%:R^-1.
Proof. by rewrite /a2 -invfM -expr2 sqr_sqrtr ?ler0n. Qed.

Definition altU : 'M[R]_3 := \matrix_(i, j)
  nth 0 (nth [::] [:: [:: a2; 0; a2]; [:: 0; 1; 0]; [:: a2; 0; - a2]] i) j.

Lemma alt_hsvd : @hsvd R 2 (hankel alt 2) altU [:: 2%:R; 1; 0] altU^T.
Proof.
have h2 : (2%:R^-1 : R) + 2%:R^-1 = 1 by rewrite [RHS](splitr 1) !mul1r.
split=> //.
- apply/matrixP => i j; rewrite !mxE !big_ord_recl big_ord0 !mxE /= !addr0.
  case: i => [[|[|[|i]]]] //= ?; case: j => [[|[|[|j]]]] //= ?; rewrite ?(mulr0, mul0r, addr0, add0r, mulr1) //.
  + by rewrite a2E.
  + by rewrite mulrN subrr.
  + by rewrite mulNr subrr.
  + by rewrite mulrNN a2E.
- by rewrite /= ler1n ler01.
- by case=> [|[|[|[|i]]]] //=; rewrite ?ler0n ?ler01.
- exists (fun=> 1) => [k j|i j]; first by rewrite mxE mul1r.
  rewrite !mxE !big_ord_recl big_ord0 !mxE /= !addr0.
  case: i => [[|[|[|i]]]] //= ?; case: j => [[|[|[|j]]]] //= ?; rewrite ?(mulr0, mul0r, addr0, add0r, mulr1) //.
  all: by rewrite mulrAC a2E mulVf // pnatr_eq0.
Qed.

Lemma alt_keep eps : keep eps 2 [:: 2%:R; 1; 0] (Some 2%:R^-1) None = Ok (2%:R^-1 : R, 2%N).
Proof.
have h : (2%:R^-1 : R) < 1 by rewrite invf_lt1 ?ltr1n ?ltr0n.
have h' : (2%:R^-1 : R) < 2%:R by apply: lt_trans h _; rewrite ltr1n.
by rewrite /keep /= h h' ltNge invr_ge0 ler0n.
Qed.

Lemma alt_rank : \rank (hankel alt 2) = 2%N.
Proof.
have Hd i j : hankel alt 2 i j = alt`_(i + j) by rewrite hankelE.
apply/eqP; rewrite eqn_leq; apply/andP; split.
  pose X : 'M[R]_(3, 2) := \matrix_(i, j) ((i == j :> nat) || (i == j + 2 :> nat)%N)%:R.
  pose Y : 'M[R]_(2, 3) := \matrix_(i, j) hankel alt 2 (widen_ord (isT : (2 <= 3)%N) i) j.
  have -> : hankel alt 2 = X *m Y.
    apply/matrixP => i j; rewrite Hd !mxE !big_ord_recl big_ord0 !mxE /= addr0.
    by case: i => [[|[|[|i]]]] //= ?; case: j => [[|[|[|j]]]] //= ?; rewrite ?(mulr0, mul0r, addr0, add0r, mulr1).
  exact: leq_trans (mxrankM_maxl _ _) (rank_leq_col _).
pose Q : 'M[R]_(2, 3) := \matrix_(i, j) (i == j :> nat)%:R.
have E : Q *m hankel alt 2 *m Q^T = 1%:M.
  apply/matrixP => i j; rewrite !mxE !big_ord_recl big_ord0 !mxE !big_ord_recl !big_ord0 !mxE /= !addr0.
  by case: i => [[|[|i]]] //= ?; case: j => [[|[|j]]] //= ?; rewrite ?(mulr0, mul0r, addr0, add0r, mulr1).
have := mxrankM_maxl (Q *m hankel alt 2) Q^T; rewrite E mxrank1 => /leq_trans; apply.
exact: mxrankM_maxr.
Qed.

Definition alt_dlu : seq 'rV[R]_3 := [:: (1 / Num.sqrt 1) *: delta_mx 0 0; (1 / Num.sqrt 1) *: delta_mx 0 1].

Lemma alt_ldl eps : ldl_hankel eps (y := alt) altU [:: 2%:R; 1; 0] altU^T (Some 2%:R^-1) None
  = Ok (alt_dlu, [:: 1; 1], hankel alt 2).
Proof.
pose s : seq R := [:: 2%:R; 1; 0].
have Ek : keep eps (half_len alt) s (Some 2%:R^-1) None = Ok (2%:R^-1, 2%N) by exact: alt_keep.
have EH : filtered (n := 2) altU s altU^T 2 = hankel alt 2.
  by apply: (filtered_full alt_hsvd); case=> [|[|[|k]]] //= _; rewrite nth_nil.
have h : (2%:R^-1 : R) <= 1 by rewrite invf_le1 ?ler1n ?ltr0n.
have Hd i j : hankel alt 2 i j = alt`_(i + j) by rewrite hankelE.
rewrite /ldl_hankel Ek /=; change (half_len alt) with 2%N; rewrite EH /ldl_rows.
rewrite !enum_ordS /= phi_delta Hd normr1 h /= phi_delta Hd oner_eq0.
rewrite /= !phi_delta !Hd /= mul0r scale0r subr0 !phi_delta !Hd /= normr1 h /=.
by rewrite oner_eq0 /= /mkseq /= normr1 sgr1.
Qed.

Lemma alt_top j : (j < size alt_dlu)%N -> alt_dlu`_j 0 ord_max = 0.
Proof. by case: j => [|[|j]] //= _; rewrite !mxE /= mulr0. Qed.

Lemma alt_reproduced eps :
  exists (U Vh : 'M[R]_3) s dlu sg H,
  [/\ hsvd (hankel alt (half_len alt)) U s Vh, keep eps (half_len alt) s (Some 2%:R^-1) None = Ok (2%:R^-1, 2%N),
      ldl_hankel eps (y := alt) U s Vh (Some 2%:R^-1) None = Ok (dlu, sg, H),
      size dlu = \rank (hankel alt (half_len alt))
    & forall j, (j < size dlu)%N -> dlu`_j 0 ord_max = 0].
Proof.
exists altU, altU^T, [:: 2%:R; 1; 0]; do 3!eexists; split.
- exact: alt_hsvd.
- exact: alt_keep.
- exact: alt_ldl.
- exact: esym alt_rank.
exact: alt_top.
Qed.

(** *** The last sample of a series of even length is not used. *)
Lemma even_refuted eps : let y : seq R := [:: 1; 0; 0; 1] in
  exists (U Vh : 'M[R]_2) s dlu sg H J,
  [/\ hsvd (hankel y (half_len y)) U s Vh, ldl_hankel eps (y := y) U s Vh (Some 2%:R^-1) None = Ok (dlu, sg, H),
      size dlu = \rank (hankel y (half_len y)),
      get_jacobi eps (y := y) U s Vh (Some 2%:R^-1) None = Ok (existT _ (size dlu) J)
    & exists2 i0, val i0 = 0%N & mpow J 3 i0 i0 != y`_3 / y`_0].
Proof.
move=> y; pose s : seq R := [:: 1; 0].
have h : (2%:R^-1 : R) < 1 by rewrite invf_lt1 ?ltr1n ?ltr0n.
have Hd i j : hankel y 1 i j = y`_(i + j) by rewrite hankelE.
have EH : hankel y 1 = diag_mx (\row_(j < 2) s`_j).
  by apply/matrixP => i j; rewrite Hd !mxE; case: i => [[|[|i]]] //= ?; case: j => [[|[|j]]].
have Hsv : hsvd (hankel y (half_len y)) 1%:M s 1%:M.
  change (half_len y) with 1%N; rewrite EH; apply: hsvd_diag => //; first by rewrite /= ler01.
  by case=> [|[|i]] //=; rewrite ?ler01 // nth_nil.
have Ek : keep eps (half_len y) s (Some 2%:R^-1) None = Ok (2%:R^-1, 1%N).
  by rewrite /keep /= h ltNge invr_ge0 ler0n.
have EF : filtered (n := 1) 1%:M s 1%:M 1 = hankel y 1.
  by apply: (filtered_full Hsv); case=> [|[|k]] //= _; rewrite nth_nil.
have El : ldl_hankel eps (y := y) 1%:M s 1%:M (Some 2%:R^-1) None
   = Ok ([:: (1 / Num.sqrt 1) *: delta_mx 0 0], [:: 1], hankel y 1).
  rewrite /ldl_hankel Ek /=; change (half_len y) with 1%N; rewrite EF /ldl_rows.
  by rewrite !enum_ordS /= phi_delta Hd /= normr1 ltW //= oner_eq0 /= /mkseq /= normr1 sgr1.
have rk : \rank (hankel y 1) = 1%N.
  have -> : hankel y 1 = delta_mx 0 0; last exact: mxrank_delta.
  by apply/matrixP => i j; rewrite Hd !mxE; case: i => [[|[|i]]] //= ?; case: j => [[|[|j]]].
exists 1%:M, 1%:M, s; do 4!eexists; split; [exact: Hsv|exact: El|exact: esym rk| |].
  by rewrite /get_jacobi El.
exists ord0 => //; rewrite mpowE.
set J := jacobi _ _ _.
have -> : J = 0.
  have z : hankel y 1 *m shift R 1 = 0.
    apply/matrixP => i j; rewrite !mxE !big_ord_recl big_ord0 Hd Hd !mxE /= !addr0.
    by case: i => [[|[|i]]] //= ?; case: j => [[|[|j]]] //= ?; rewrite ?(mulr0, mul0r, addr0).
  by rewrite /J /jacobi z mulmx0 !mul0mx.
by rewrite expr0n /= mxE divr1 eq_sym oner_eq0.
Qed.

(** *** As many terms as singular values. *)
Lemma index_refuted (eps : R) : let y : seq R := [:: 1; 0; 1] in
  exists (U Vh : 'M[R]_2) s,
  [/\ hsvd (hankel y (half_len y)) U s Vh, forall i : 'I_2, 2%:R^-1 <= `|hankel y (half_len y) i i|
    & get_jacobi eps (y := y) U s Vh (Some 2%:R^-1) (Some 2%N) = Err OutOfBounds].
Proof.
move=> y; pose s : seq R := [:: 1; 1].
have h : (2%:R^-1 : R) < 1 by rewrite invf_lt1 ?ltr1n ?ltr0n.
have Hd i j : hankel y 1 i j = y`_(i + j) by rewrite hankelE.
have EH : hankel y 1 = diag_mx (\row_(j < 2) s`_j).
  by apply/matrixP => i j; rewrite Hd !mxE; case: i => [[|[|i]]] //= ?; case: j => [[|[|j]]].
exists 1%:M, 1%:M, s; split.
- change (half_len y) with 1%N; rewrite EH; apply: hsvd_diag => //; first by rewrite /= lexx.
  by case=> [|[|i]] //=; rewrite ?ler01 // nth_nil.
- change (half_len y) with 1%N; move=> i; rewrite Hd.
  by case: i => [[|[|i]]] //= ?; rewrite normr1 ltW.
- by rewrite /get_jacobi /ldl_hankel /keep /= h.
Qed.

(** *** As many terms as the rank: the threshold is the next singular value, zero. *)
Definition cusp : seq R := [:: 1; 1; 1; 1; 3%:R].

Section Cusp.
Add Field RF : (mc_field_theory R).
Variables (x a b c : R).
Hypotheses (ha : rmul a a = x) (hb : rmul b b = radd x x) (hc : rmul c c = radd x (radd x x)).
Hypothesis h6 : x + x + x + x + x + x = 1.

Definition cuspU : 'M[R]_3 := \matrix_(i, j)
  nth 0 (nth [::] [:: [:: a; b; c]; [:: a; b; - c]; [:: a + a; - b; 0]] i) j.

Lemma cusp_hsvd : @hsvd R 2 (hankel cusp 2) cuspU [:: 4%:R; 1; 0] cuspU^T.
Proof.
split=> //.
- apply/matrixP => i j; rewrite !mxE !big_ord_recl big_ord0 !mxE /= !addr0.
  case: i => [[|[|[|i]]]] //= ?; case: j => [[|[|[|j]]]] //= ?; rewrite ?mulr1n ?mulr0n -?[in RHS]h6;
  fold_ring (Num.RealClosedField.fieldType R); ring [ha hb hc].
- by rewrite /= ler1n ler01.
- by case=> [|[|[|[|i]]]] //=; rewrite ?ler0n ?ler01.
- exists (fun=> 1) => [k j|i j]; first by rewrite mxE mul1r.
  rewrite hankelE // !big_ord_recl big_ord0 !mxE /= !addr0.
  case: i => [[|[|[|i]]]] //= ?; case: j => [[|[|[|j]]]] //= ?;
   (apply: (etrans (esym (mulr1 _))); rewrite -[X in _ * X]h6;
   fold_ring (Num.RealClosedField.fieldType R); ring [ha hb hc]).
Qed.

Lemma cusp_nan eps : 0 < eps < 12%:R^-1 ->
  get_jacobi eps (y := cusp) cuspU [:: 4%:R; 1; 0] cuspU^T None (Some 2%N) = Err ZeroDivision.
Proof.
move=> /andP[e0 e1].
have z : (0 <= 0 :> R) by [].
have Ek : keep eps (half_len cusp) [:: 4%:R; 1; 0] None (Some 2%N) = Ok (0, 2%N).
  rewrite /keep /=; change (half_len cusp) with 2%N.
  have -> : Num.max 4%:R (Num.max 1 (Num.max 0 0)) = 4%:R :> R.
    by rewrite maxxx [Num.max 1 0]max_l ?ler01 // max_l // ler1n.
  have p : (0 < 4%:R * 3%:R * eps :> R) by rewrite !mulr_gt0 ?ltr0n.
  have p1 : (4%:R * 3%:R * eps < 1 :> R).
    have -> : 4%:R * 3%:R = 12%:R :> R by rewrite -natrM.
    rewrite mulrC -ltr_pdivl_mulr ?ltr0n // mul1r.
    by [].
  have p4 : (4%:R * 3%:R * eps < 4%:R :> R) by apply: lt_le_trans p1 _; rewrite ler1n.
  by rewrite p4 p1 (ltNge _ 0) (ltW p).
have EH : filtered (n := 2) cuspU [:: 4%:R; 1; 0] cuspU^T 2 = hankel cusp 2.
  by apply: (filtered_full cusp_hsvd); case=> [|[|[|k]]] //= _; rewrite nth_nil.
have Hd i j : hankel cusp 2 i j = cusp`_(i + j) by rewrite hankelE.
rewrite /get_jacobi /ldl_hankel Ek /=; change (half_len cusp) with 2%N; rewrite EH /ldl_rows.
rewrite !enum_ordS /= normr_ge0 /= phi_delta Hd oner_eq0 /= normr_ge0 /= oner_eq0 /=.
rewrite !phi_delta !Hd /= divr1 scale1r.
set w := phi_bis _ _ _.
have -> : w = 0.
  rewrite /w; set e1v := delta_mx _ _.
  have := @phiDl R 2 (hankel cusp 2) 1 e1v (delta_mx 0 ord0); rewrite scale1r => E.
  have Hc := @phiC R 2 _ (hankel_sym cusp 2).
  by rewrite E Hc (Hc (delta_mx 0 ord0)) !E /e1v !phi_delta !Hd /= !mul1r !subrr.
by rewrite eqxx.
Qed.
End Cusp.

Lemma threshold_refuted (eps : R) : 0 < eps < 12%:R^-1 -> exists (U Vh : 'M[R]_3) s,
  hsvd (hankel cusp (half_len cusp)) U s Vh /\
  get_jacobi eps (y := cusp) U s Vh None (Some 2%N) = Err ZeroDivision.
Proof.
move=> He; pose x : R := 6%:R^-1.
have x0 : 0 <= x by rewrite invr_ge0 ler0n.
have h6 : x + x + x + x + x + x = 1.
  have -> : x + x + x + x + x + x = 6%:R * x by rewrite mulr_natl !mulrS mulr0n addr0 !addrA.
  by rewrite mulfV ?pnatr_eq0.
have sq (z : R) : 0 <= z -> rmul (Num.sqrt z) (Num.sqrt z) = z by move=> z0; rewrite /rmul -expr2 sqr_sqrtr.
have ha := sq _ x0; have hb := sq (radd x x) (addr_ge0 x0 x0).
have hc := sq (radd x (radd x x)) (addr_ge0 x0 (addr_ge0 x0 x0)).
exists (cuspU (Num.sqrt x) (Num.sqrt (radd x x)) (Num.sqrt (radd x (radd x x)))).
by eexists; eexists; split; [exact: (cusp_hsvd ha hb hc h6) | exact: (cusp_nan ha hb hc h6 He)].
Qed.

End Wit.
