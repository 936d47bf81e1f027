(** * B-splines: knots and values of the basis. *)
From mathcomp Require Import all_ssreflect all_algebra zify.
From Verif Require Import Base Tactics BSpline BSplineProofs.
Set Implicit Arguments.
Unset Strict Implicit.
Unset Printing Implicit Defensive.
Import GRing.Theory Num.Theory Order.Theory.
Local Open Scope ring_scope.

Section Interval.
Variable R : realFieldType.
Implicit Types (t x : seq R).

Lemma searchP t nk1 (a : R) fuel l : (l < nk1)%N -> (nk1 <= fuel + l)%N ->
  let r := search t nk1 a fuel l in
  [/\ (l <= r)%N, (r < nk1)%N, r = l \/ nth 0 t r <= a & r.+1 = nk1 \/ a < nth 0 t r.+1].
Proof.
elim: fuel l => [|f IH] l ln nf /=; first slia.
case: ifP => [/andP[l1 le]|/negbT].
  have [|h1 h2 h3 h4] := IH l.+1 l1; first slia.
  by split=> //; [slia | right; case: h3 => [->|]].
rewrite negb_and -leqNgt -ltNge => h; split=> //; first by left.
by case/orP: h => h; [left; slia | right].
Qed.

(** Knots that only repeat outside the range. *)
Definition good_knots t k :=
  [/\ forall i j, (i <= j)%N -> (j < size t)%N -> nth 0 t i <= nth 0 t j, (k.*2.+2 <= size t)%N
    & forall i, (k <= i)%N -> (i.+1 < size t - k)%N -> nth 0 t i < nth 0 t i.+1].

Lemma intervalP t k (a : R) : good_knots t k ->
  let l := interval t k a in
  [/\ (k <= l)%N, (l + k.+1 < size t)%N, nth 0 t l < nth 0 t l.+1,
      l = k \/ nth 0 t l <= a & (l + k).+2 = size t \/ a < nth 0 t l.+1].
Proof.
move=> [_ sz inc] l; have [||h1 h2 h3 h4] := @searchP t (size t - k.+1) a (size t) k; [slia|slia|].
rewrite -/(interval t k a) -/l in h1 h2 h3 h4; split=> //; [slia|apply: inc; slia|].
by case: h4 => h4; [left; slia|right].
Qed.

Lemma interval_unique t k (a : R) l : good_knots t k -> (k <= l)%N -> (l + k.+1 < size t)%N ->
  nth 0 t l <= a -> a < nth 0 t l.+1 -> interval t k a = l.
Proof.
move=> g kl ls la al; have [h1 h2 _ h3 h4] := intervalP a g; have [mono _ _] := g.
case: (ltngtP (interval t k a) l) => // c.
  case: h4 => h4; first slia; suff : nth 0 t (interval t k a).+1 <= nth 0 t l by move/le_trans/(_ la); rewrite leNgt h4.
  by apply: mono; slia.
case: h3 => h3; first slia; suff : nth 0 t l.+1 <= nth 0 t (interval t k a) by move/(lt_le_trans al)/lt_le_trans/(_ h3); rewrite ltxx.
by apply: mono; slia.
Qed.

Lemma interval_last t k (a : R) : good_knots t k -> nth 0 t (size t - k.+1) <= a ->
  interval t k a = (size t - k.+2)%N.
Proof.
move=> g la; have [h1 h2 _ h3 h4] := intervalP a g; have [mono _ _] := g.
case: h4 => h4; first slia.
suff : nth 0 t (interval t k a).+1 <= nth 0 t (size t - k.+1) by move/le_trans/(_ la); rewrite leNgt h4.
by apply: mono; slia.
Qed.
End Interval.

Section Knots.
Variable R : realFieldType.
Variables (x : seq R) (k : nat).
Hypothesis k0 : (0 < k)%N.
Hypothesis km : (k < size x)%N.
Hypothesis inc : sorted <%R x.
Local Notation m := (size x).
Local Notation X := (nth 0 x).

Lemma X_lt i j : (i < j)%N -> (j < m)%N -> X i < X j.
Proof. by move=> ij jm; apply: (sorted_ltn_nth lt_trans 0 inc) => //; exact: (ltn_trans ij jm). Qed.
Lemma X_le i j : (i <= j)%N -> (j < m)%N -> X i <= X j.
Proof. by case: (ltngtP i j) => // [ij|->] _ jm //; exact/ltW/X_lt. Qed.
Lemma X_head : head 0 x = X 0. Proof. by rewrite nth0. Qed.
Lemma X_last : last 0 x = X m.-1. Proof. by rewrite nth_last. Qed.

Lemma step_mono (t : seq R) : (forall i, (i.+1 < size t)%N -> nth 0 t i <= nth 0 t i.+1) ->
  forall i j, (i <= j)%N -> (j < size t)%N -> nth 0 t i <= nth 0 t j.
Proof.
move=> H i j ij; rewrite -(subnKC ij); elim: (j - i)%N => [|d IH]; first by rewrite addn0.
by rewrite addnS => s; apply: (le_trans (IH _)); [slia | exact: H].
Qed.

(** Not periodic. *)
Lemma interior_lt j : (j.+1 < m - k.+1)%N -> interior k x j < interior k x j.+1.
Proof.
move=> jm; rewrite /interior; case: ifP => o; first by apply: X_lt; slia.
rewrite ltr_pmul2r ?invr_gt0 ?ltr0n // addSn.
by apply: ltr_add; apply: X_lt; slia.
Qed.
Lemma interior_gt j : (j < m - k.+1)%N -> X 0 < interior k x j.
Proof.
move=> jm; rewrite /interior; case: ifP => o; first by apply: X_lt; slia.
rewrite ltr_pdivl_mulr ?ltr0n // mulr_natr mulr2n; by apply: ltr_add; apply: X_lt; slia.
Qed.
Lemma interior_last j : (j < m - k.+1)%N -> interior k x j < X m.-1.
Proof.
move=> jm; rewrite /interior; case: ifP => o; first by apply: X_lt; slia.
rewrite ltr_pdivr_mulr ?ltr0n // mulr_natr mulr2n; by apply: ltr_add; apply: X_lt; slia.
Qed.

Lemma size_curfit : size (curfit_knots k x) = (m + k.+1)%N.
Proof. by rewrite /curfit_knots !size_cat !size_nseq size_mkseq; slia. Qed.
Lemma curfitE i : (i < m + k.+1)%N -> nth 0 (curfit_knots k x) i =
  if (i <= k)%N then X 0 else if (i < m)%N then interior k x (i - k.+1) else X m.-1.
Proof.
move=> im; rewrite /curfit_knots !nth_cat !size_nseq size_mkseq ltnS !nth_nseq X_head X_last.
case: (leqP i k) => ik; first by rewrite ltnS ik.
have -> : (i - k.+1 < m - k.+1)%N = (i < m)%N by slia.
case: ltnP => h; first by rewrite nth_mkseq //; slia.
by rewrite ifT //; slia.
Qed.

Lemma curfit_good : good_knots (curfit_knots k x) k.
Proof.
have lt i : (k <= i)%N -> (i < m)%N -> nth 0 (curfit_knots k x) i < nth 0 (curfit_knots k x) i.+1.
  move=> ki im; rewrite !curfitE; [|slia|slia].
  have -> : (i.+1 <= k)%N = false by slia.
  case: (ltnP k i) => ik.
    rewrite im; case: (ltnP i.+1 m) => h; last by apply: interior_last; slia.
    by rewrite subSn; [apply: interior_lt; slia | slia].
  case: (ltnP i.+1 m) => h; last by apply: X_lt; slia.
  by apply: interior_gt; slia.
split; last by move=> i ki; rewrite size_curfit => im; apply: lt => //; slia.
  apply: step_mono => i; rewrite size_curfit => im.
  case: (leqP k i) => ki; last by rewrite !curfitE ?ifT //; slia.
  case: (ltnP i m) => h; first exact/ltW/lt.
  by rewrite !curfitE; [|slia|slia]; do 4 (rewrite ifF; last slia).
by rewrite size_curfit; slia.
Qed.

(** Periodic. *)
Local Notation u := (period_knot k x).
Lemma u_first : u 0 = X 0. Proof. by []. Qed.
Lemma u_last : u m.-1 = X m.-1. Proof. by rewrite /period_knot prednK ?eqxx ?orbT //; slia. Qed.
Lemma u_lt i : (i.+1 < m)%N -> u i < u i.+1.
Proof.
have half (p q r : R) : p < q -> p < r -> p < (q + r) / 2%:R.
  by move=> h1 h2; rewrite ltr_pdivl_mulr ?ltr0n // mulr_natr mulr2n; exact: ltr_add.
have half' (p q r : R) : q < p -> r < p -> (q + r) / 2%:R < p.
  by move=> h1 h2; rewrite ltr_pdivr_mulr ?ltr0n // mulr_natr mulr2n; exact: ltr_add.
move=> im; rewrite /period_knot.
case: (boolP (odd k)) => o; first by rewrite !orbT; apply: X_lt; slia.
rewrite /= !orbF (ltn_eqF im) orbF.
have kk : (2 < m)%N by slia.
case: i im => [|i] im /=.
  by rewrite ifF; [rewrite ltr_pdivl_mulr ?ltr0n // mulr_natr mulr2n; apply: ltr_le_add => //; apply: X_lt; slia | slia].
case: ifP => h; first by apply: half'; apply: X_lt; slia.
rewrite ltr_pmul2r ?invr_gt0 ?ltr0n //; apply: ltr_add; apply: X_lt; slia.
Qed.

Lemma size_percur : size (percur_knots k x) = (m + 2 * k)%N.
Proof. by rewrite size_mkseq. Qed.
Lemma percurE i : (i < m + 2 * k)%N -> nth 0 (percur_knots k x) i =
  if (i < k)%N then u (i + m.-1 - k) - (X m.-1 - X 0) else if (i < k + m)%N then u (i - k)
  else u (i - k - m.-1) + (X m.-1 - X 0).
Proof. by move=> im; rewrite nth_mkseq // X_head X_last. Qed.

Lemma percur_lt i : (i.+1 < m + 2 * k)%N -> nth 0 (percur_knots k x) i < nth 0 (percur_knots k x) i.+1.
Proof.
move=> im; rewrite !percurE //; last slia.
case: (ltnP i.+1 k) => h1.
  have -> : (i < k)%N by slia.
  by rewrite ltr_add2r (_ : i.+1 + m.-1 - k = (i + m.-1 - k).+1)%N; [apply: u_lt; slia | slia].
case: (ltnP i k) => h2.
  have -> : (i.+1 < k + m)%N by slia.
  rewrite (_ : i.+1 - k = 0)%N; last slia; rewrite u_first ltr_subl_addr addrC subrK -u_last.
  by rewrite (_ : i + m.-1 - k = m.-2)%N; [have := @u_lt m.-2; rewrite (_ : m.-2.+1 = m.-1); [apply; slia | slia] | slia].
case: (ltnP i.+1 (k + m)) => h3.
  have -> : (i < k + m)%N by slia.
  by rewrite subSn //; apply: u_lt; slia.
case: (ltnP i (k + m)) => h4.
  rewrite (_ : i - k = m.-1)%N; last slia; rewrite (_ : i.+1 - k - m.-1 = 1)%N; last slia.
  by rewrite u_last [period_knot _ _ 1 + _]addrCA ltr_addl subr_gt0; apply: (@u_lt 0); slia.
by rewrite ltr_add2r (_ : i.+1 - k - m.-1 = (i - k - m.-1).+1)%N; [apply: u_lt; slia | slia].
Qed.

Lemma percur_good : good_knots (percur_knots k x) k.
Proof.
split; [|by rewrite size_percur; slia|].
  by apply: step_mono => i; rewrite size_percur => im; exact/ltW/percur_lt.
by move=> i _; rewrite size_percur => im; apply: percur_lt; slia.
Qed.
End Knots.

(** Values of the basis. *)
Section Values.
Variable R : realFieldType.
Variables (t : seq R) (k ns : nat).
Hypothesis g : good_knots t k.
Local Notation T := (nth 0 t).
Definition onehot (n : nat) : seq R := mkseq (fun i => if i == n then 1 else 0) (size t).
Definition sval n (a : R) := splev t k (onehot n) a.
Local Notation l a := (interval t k a).
Local Notation H a := (nth 0 (fpbspl t (l a) a k)).

Lemma svalE n a : sval n a = \sum_(i < k.+1) (n == l a - k + i)%N%:R * H a i.
Proof.
apply: eq_bigr => i _; have [h1 h2 _ _ _] := intervalP a g.
by rewrite nth_mkseq 1?eq_sym; [case: eqP | have := ltn_ord i; slia].
Qed.

Lemma sval_in n a : (l a <= n + k)%N -> (n <= l a)%N -> sval n a = H a (n - (l a - k)).
Proof.
move=> h1 h2; have [h3 _ _ _ _] := intervalP a g.
rewrite svalE.
have ik : (n - (l a - k) < k.+1)%N by slia.
rewrite (bigD1 (Ordinal ik)) //= big1 ?addr0; last first.
  move=> i ne; rewrite (_ : (_ == _) = false) ?mul0r //; apply/negP => /eqP e; move/negP: ne; apply.
  by apply/eqP/val_inj => /=; slia.
by rewrite (_ : (_ == _)%N) ?mul1r //; apply/eqP; slia.
Qed.
Lemma sval_out n a : (n + k < l a)%N || (l a < n)%N -> sval n a = 0.
Proof.
move=> h; have [h3 _ _ _ _] := intervalP a g.
rewrite svalE big1 // => i _; rewrite (_ : (_ == _)%N = false) ?mul0r //.
by apply/negP => /eqP; have := ltn_ord i; slia.
Qed.

Lemma sum_sval (c : nat -> R) a : (l a < ns)%N ->
  \sum_(n < ns) c n * sval n a = \sum_(i < k.+1) H a i * c (l a - k + i)%N.
Proof.
move=> ln; have [h3 _ _ _ _] := intervalP a g.
under eq_bigr do rewrite svalE mulr_sumr.
rewrite exchange_big /=; apply: eq_bigr => i _.
have li : (l a - k + i < ns)%N by have := ltn_ord i; slia.
rewrite (bigD1 (Ordinal li)) //= eqxx mul1r mulrC big1 ?addr0 // => n ne.
rewrite (_ : (_ == _)%N = false) ?mul0r ?mulr0 //; apply/negP => /eqP e; move/negP: ne; apply.
exact/eqP/val_inj.
Qed.

Lemma sval_unity a : (l a < ns)%N -> \sum_(n < ns) sval n a = 1.
Proof.
move=> ln; have [h1 h2 h3 _ _] := intervalP a g; have [mono _ _] := g.
rewrite -(h_sum a mono h1 h2 h3) -[RHS](eq_bigr _ (fun i _ => mulr1 _)).
by rewrite -(sum_sval (fun=> 1) ln); apply: eq_bigr => n _; rewrite mul1r.
Qed.

(** Polynomials up to the degree. *)
Definition mcoef (p : {poly R}) n := \sum_(e < k.+1) p`_e *
  ((-1) ^+ e * (\prod_(s < k) ('X - (T (n + s.+1)%N)%:P))`_(k - e) / 'C(k, e)%:R).
Lemma sval_poly (p : {poly R}) a : (size p <= k.+1)%N -> (l a < ns)%N ->
  \sum_(n < ns) mcoef p n * sval n a = p.[a].
Proof.
move=> sp ln; have [h1 h2 h3 _ _] := intervalP a g; have [mono _ _] := g.
rewrite sum_sval // (horner_coef_wide a sp).
under eq_bigr do rewrite /mcoef mulr_sumr.
rewrite exchange_big /=; apply: eq_bigr => e _.
rewrite -(h_monomial a mono h1 h2 h3 (ltn_ord e : (e <= k)%N)) mulr_sumr; apply: eq_bigr => i _.
rewrite mulrCA; congr (_ * (_ * (_ * _ / _))).
congr (nth 0 (polyseq _) _); rewrite /mars; apply: eq_bigr => s _; congr ('X - (nth 0 t _)%:P).
by slia.
Qed.

Lemma sval_ge0 n a : T k <= a -> a <= T (size t - k.+1)%N -> 0 <= sval n a.
Proof.
move=> ka ak; have [h1 h2 h3 h4 h5] := intervalP a g; have [mono _ _] := g.
rewrite svalE; apply: sumr_ge0 => i _; apply: mulr_ge0; first exact: ler0n.
apply: (h_ge0 (k := k)) => //; first by case: h4 => [->|].
case: h5 => [e|/ltW //]; apply: (le_trans ak); apply: mono; slia.
Qed.
Lemma sval_le1 n a : (l a < ns)%N -> (n < ns)%N -> T k <= a -> a <= T (size t - k.+1)%N -> sval n a <= 1.
Proof.
move=> ln nn ka ak; rewrite -(sval_unity ln) (bigD1 (Ordinal nn)) //= ler_addl.
by apply: sumr_ge0 => i _; exact: sval_ge0.
Qed.

(** Support: [T n .. T (n + k + 1)]. *)
Lemma sval_support n a : T k <= a -> a <= T (size t - k.+1)%N -> (n + k.+1 < size t)%N ->
  (a < T n) || (T (n + k.+1)%N < a) -> sval n a = 0.
Proof.
move=> ka ak ns' h; have [h1 h2 h3 h4 h5] := intervalP a g; have [mono _ _] := g.
apply: sval_out; case/orP: h => h.
  case: (leqP n (l a)) => // nl; last by rewrite orbT.
  have : T n <= a; last by rewrite leNgt h.
  by case: h4 => [e|h4]; [apply: le_trans ka; apply: mono; slia | apply: le_trans h4; apply: mono; slia].
case: (ltnP (n + k) (l a)) => //= nl.
have : a <= T (n + k.+1)%N; last by rewrite leNgt h.
case: h5 => [e|/ltW h5]; first by apply: (le_trans ak); apply: mono; slia.
by apply: (le_trans h5); apply: mono; slia.
Qed.
End Values.
