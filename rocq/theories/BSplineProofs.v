(** * B-splines: local values, Marsden's identity. *)
From mathcomp Require Import all_ssreflect all_algebra zify.
From Verif Require Import Base Tactics BSpline.
Set Implicit Arguments.
Unset Strict Implicit.
Unset Printing Implicit Defensive.
Import GRing.Theory Num.Theory Order.Theory.
Local Open Scope ring_scope.

Section Local.
Variable R : realFieldType.
Variable t : seq R.
Local Notation T := (nth 0 t).
Local Notation h := (fpbspl t).

Lemma size_h l a j : size (h l a j) = j.+1.
Proof. case: j => // j; exact: size_mkseq. Qed.

Definition gap l i j := T (l + i.+1)%N - T (l + i - j)%N.

Lemma hS l a j i : (j <= l)%N -> (i < j.+2)%N -> (forall i, (i <= j)%N -> gap l i j != 0) ->
  nth 0 (h l a j.+1) i = (if (i <= j)%N then nth 0 (h l a j) i / gap l i j * (T (l + i.+1)%N - a) else 0)
    + (if (0 < i)%N then nth 0 (h l a j) i.-1 / gap l i.-1 j * (a - T (l + i.-1 - j)%N) else 0).
Proof.
move=> jl il g; rewrite [h l a j.+1]/(mkseq (fun i => (if (i < j.+1)%N then (let d := T (l + i.+1)%N - T (l + i.+1 - j.+1)%N in
  if d == 0 then 0 else nth 0 (h l a j) i / d) * (T (l + i.+1)%N - a) else 0)
  + (if (0 < i)%N then (let d := T (l + i.-1.+1)%N - T (l + i.-1.+1 - j.+1)%N in
  if d == 0 then 0 else nth 0 (h l a j) i.-1 / d) * (a - T (l + i - j.+1)%N) else 0)) j.+2).
rewrite (nth_map 0%N) ?size_iota // nth_iota // add0n ltnS; cbv zeta.
have e q : (l + q.+1 - j.+1 = l + q - j)%N by lia.
congr (_ + _).
  by case: leqP => // ij; rewrite e -/(gap l i j) (negPf (g i ij)).
case: i il => //= i il; rewrite e -/(gap l i j) (negPf (g i _)) ?addnS ?subSS //.
Qed.

(** de Boor's recursion, for coefficients in any module. *)
Lemma deboor (V : lmodType R) (c : nat -> V) l a j : (j <= l)%N -> (forall i, (i <= j)%N -> gap l i j != 0) ->
  \sum_(i < j.+2) nth 0 (h l a j.+1) i *: c i =
  \sum_(i < j.+1) nth 0 (h l a j) i *:
     ((gap l i j)^-1 *: ((T (l + i.+1)%N - a) *: c i + (a - T (l + i - j)%N) *: c i.+1)).
Proof.
move=> jl g.
rewrite (eq_bigr (fun i : 'I_j.+2 =>
   (if (i <= j)%N then nth 0 (h l a j) i / gap l i j * (T (l + i.+1)%N - a) else 0) *: c i
 + (if (0 < i)%N then nth 0 (h l a j) i.-1 / gap l i.-1 j * (a - T (l + i.-1 - j)%N) else 0) *: c i)); last first.
  by move=> i _; rewrite hS // scalerDl.
rewrite big_split /= big_ord_recr /= ltnn /= scale0r addr0; rewrite [X in _ + X]big_ord_recl /= scale0r add0r -big_split /=.
apply: eq_bigr => i _; rewrite -ltnS ltn_ord /= !scalerA scalerDr !scalerA /=.
by rewrite /bump /= add1n.
Qed.

(** Nondecreasing knots, nonempty interval [l]. *)
Section Mono.
Variables (k l : nat) (a : R).
Hypothesis mono : forall i j, (i <= j)%N -> (j < size t)%N -> T i <= T j.
Hypothesis kl : (k <= l)%N.
Hypothesis ls : (l + k.+1 < size t)%N.
Hypothesis ne : T l < T l.+1.

Lemma gap_gt0 i j : (j < k)%N -> (i <= j)%N -> 0 < gap l i j.
Proof.
move=> jk ij; rewrite subr_gt0; apply: (le_lt_trans (y := T l)); first by apply: mono; lia.
by apply: (lt_le_trans ne); apply: mono; lia.
Qed.
Lemma gap_n0 j : (j < k)%N -> forall i, (i <= j)%N -> gap l i j != 0.
Proof. by move=> jk i ij; rewrite gt_eqF // gap_gt0. Qed.

(** Marsden. *)
Definition mars j i : {poly R} := \prod_(s < j) ('X - (T (l + i + s.+1 - j)%N)%:P).

Lemma marsden j : (j <= k)%N -> \sum_(i < j.+1) nth 0 (h l a j) i *: mars j i = ('X - a%:P) ^+ j.
Proof.
elim: j => [|j IH] jk.
  by rewrite big_ord_recl big_ord0 /= /mars big_ord0 scale1r addr0 expr0.
rewrite deboor; [|lia|exact: gap_n0].
rewrite exprS -IH; last lia; rewrite mulr_sumr; apply: eq_bigr => i _.
have ij : (i <= j)%N by rewrite -ltnS.
have E1 : mars j.+1 i = ('X - (T (l + i - j)%N)%:P) * mars j i.
  rewrite /mars big_ord_recl /=; congr (_ * _); first by congr ('X - (nth 0 t _)%:P); lia.
  by apply: eq_bigr => s _; congr ('X - (nth 0 t _)%:P); rewrite /bump; lia.
have E2 : mars j.+1 i.+1 = ('X - (T (l + i.+1)%N)%:P) * mars j i.
  rewrite /mars big_ord_recr /= mulrC; congr (_ * _); first by congr ('X - (nth 0 t _)%:P); lia.
  by apply: eq_bigr => s _; congr ('X - (nth 0 t _)%:P); lia.
rewrite E1 E2 -scalerAr; congr (_ *: _).
rewrite !scalerAl -mulrDl scalerAl; congr (_ * _).
have g : gap l i j != 0 by apply: gap_n0.
have -> : (T (l + i.+1)%N - a) *: ('X - (T (l + i - j)%N)%:P) + (a - T (l + i - j)%N) *: ('X - (T (l + i.+1)%N)%:P)
        = gap l i j *: ('X - a%:P).
  rewrite /gap !scalerBr -!mul_polyC.
  move: (T _) (T _) => p q; rewrite !polyCB !mulrBl.
  rewrite [a%:P * p%:P]mulrC [a%:P * q%:P]mulrC [q%:P * p%:P]mulrC.
  move: ('X) (a%:P) (p%:P) (q%:P) => X A P Q.
  by abel.
by rewrite scalerA mulVf // scale1r.
Qed.

(** Monomials. *)
Lemma h_monomial e : (e <= k)%N ->
  \sum_(i < k.+1) nth 0 (h l a k) i * ((-1) ^+ e * (mars k i)`_(k - e) / 'C(k, e)%:R) = a ^+ e.
Proof.
move=> ek; have := congr1 (fun p : {poly R} => p`_(k - e)) (marsden (leqnn k)).
rewrite coef_sum; under eq_bigr do rewrite coefZ.
have -> : ('X - a%:P) ^+ k = \sum_(i < k.+1) ((-1) ^+ i * a ^+ i *+ 'C(k, i)) *: 'X^(k - i).
  rewrite -polyCN exprDn; apply: eq_bigr => i _.
  by rewrite -rmorphX /= mulrC mul_polyC [(- a) ^+ i]exprNn scalerMnl.
rewrite coef_sum => H.
have c0 : 'C(k, e)%:R != 0 :> R by rewrite pnatr_eq0 -lt0n bin_gt0.
have {}H : \sum_(i < k.+1) nth 0 (h l a k) i * (mars k i)`_(k - e) = (-1) ^+ e * a ^+ e *+ 'C(k, e).
  rewrite H (bigD1 (Ordinal (ek : (e < k.+1)%N))) //= coefZ coefXn eqxx mulr1 big1 ?addr0 // => i ie.
  rewrite coefZ coefXn (_ : (_ == _) = false) ?mulr0 //; apply/negP => /eqP e1.
  by move/negP: ie; apply; apply/eqP/val_inj => /=; have := ltn_ord i; lia.
have E (p q r c : R) : p * (q * r / c) = q / c * (p * r) by rewrite mulrA [p * (q * r)]mulrCA mulrAC.
under eq_bigr do rewrite E.
rewrite -mulr_sumr H -[_ * _ *+ _]mulr_natr [_ * a ^+ e * _]mulrC mulrA divfK // mulrA.
by rewrite -exprD addnn -signr_odd odd_double expr0 mul1r.
Qed.

Lemma h_sum : \sum_(i < k.+1) nth 0 (h l a k) i = 1.
Proof.
rewrite -(expr0 a) -(h_monomial (leq0n k)); apply: eq_bigr => i _.
rewrite subn0 bin0 divr1 expr0 mul1r.
have -> : (mars k i)`_k = 1; last by rewrite mulr1.
have m : mars k i \is monic by apply: monic_prod => s _; exact: monicXsubC.
have s : size (mars k i) = k.+1 by rewrite /mars size_prod_XsubC /index_enum -enumT size_enum_ord.
by move/monicP: m; rewrite /lead_coef s.
Qed.

(** Sign. *)
Lemma h_ge0 j i : (j <= k)%N -> T l <= a -> a <= T l.+1 -> 0 <= nth 0 (h l a j) i.
Proof.
move=> jk la al; elim: j jk i => [|j IH] jk i; first by case: i => [|[|i]] //=; rewrite ler01.
case: (ltnP i j.+2) => ij; last by rewrite nth_default // size_h.
rewrite hS //; [|lia|exact: gap_n0]; apply: addr_ge0.
  case: leqP => // ij'; apply: mulr_ge0; first by rewrite divr_ge0 ?IH ?(ltW (gap_gt0 _ _)) //; lia.
  by rewrite subr_ge0; apply: (le_trans al); apply: mono; lia.
case: i ij => //= i ij; apply: mulr_ge0; first by rewrite divr_ge0 ?IH ?(ltW (gap_gt0 _ _)) //; lia.
by rewrite subr_ge0; apply: (le_trans _ la); apply: mono; lia.
Qed.

Lemma h_first_gt0 j : (j <= k)%N -> a < T l.+1 -> 0 < nth 0 (h l a j) 0.
Proof.
move=> jk al; elim: j jk => [|j IH] jk; first exact: ltr01.
rewrite hS //; [|lia|exact: gap_n0]; rewrite /= addr0 mulr_gt0 ?divr_gt0 ?IH ?gap_gt0 //; try lia.
by rewrite subr_gt0 addn1.
Qed.
Lemma h_last_gt0 j : (j <= k)%N -> T l < a -> 0 < nth 0 (h l a j) j.
Proof.
move=> jk al; elim: j jk => [|j IH] jk; first exact: ltr01.
rewrite hS //; [|lia|exact: gap_n0]; rewrite ltnn add0r /= mulr_gt0 ?divr_gt0 ?IH ?gap_gt0 //; try lia.
by rewrite subr_gt0 addnK.
Qed.
(** Values at an end point. *)
Lemma h_left j i : (j <= k)%N -> (forall i, (i < k)%N -> T (l - i)%N = a) -> (i <= j)%N ->
  nth 0 (h l a j) i = (i == 0%N)%:R.
Proof.
move=> jk E; elim: j jk i => [|j IH] jk i; first by case: i.
move=> ij; rewrite hS //; [|lia|exact: gap_n0].
have Ea : T (l - j)%N = a by apply: E.
case: i ij => [|i] ij /=.
  rewrite addr0 IH //; last lia; rewrite eqxx mul1r /gap addn0 Ea addn1 mulVf // subr_eq0.
  have := gap_n0 (j := j) jk (leq0n j); by rewrite /gap addn0 addn1 Ea subr_eq0.
have -> : (if (i < j)%N then nth 0 (h l a j) i.+1 / gap l i.+1 j * (T (l + i.+2)%N - a) else 0) = 0.
  by case: ifP => // ij'; rewrite IH //= ?mul0r //; lia.
rewrite add0r IH; [|lia|lia]; case: i ij => [|i] ij /=; last by rewrite !mul0r.
by rewrite addn0 Ea subrr mulr0.
Qed.
Lemma h_right j i : (j <= k)%N -> (forall i, (i < k)%N -> T (l.+1 + i)%N = a) -> (i <= j)%N ->
  nth 0 (h l a j) i = (i == j)%:R.
Proof.
move=> jk E; elim: j jk i => [|j IH] jk i; first by case: i.
move=> ij; rewrite hS //; [|lia|exact: gap_n0].
have -> : (if (i <= j)%N then nth 0 (h l a j) i / gap l i j * (T (l + i.+1)%N - a) else 0) = 0.
  case: ifP => // ij'; have -> : T (l + i.+1)%N = a by rewrite addnS -addSn; apply: E; lia.
  by rewrite subrr mulr0.
rewrite add0r; case: i ij => [|i] ij //=; rewrite IH; [|lia|lia]; rewrite eqSS.
case: eqP => [->|_]; last by rewrite !mul0r.
have Ea : T (l + j.+1)%N = a by rewrite addnS -addSn; apply: E.
have := gap_n0 (j := j) jk (leqnn j); rewrite /gap Ea mul1r => g; by rewrite mulVf.
Qed.
End Mono.
End Local.
