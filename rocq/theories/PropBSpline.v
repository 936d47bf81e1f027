(** * C78: the B-spline basis built on given knots (_local_features.py:12-23, 48-68). *)
From mathcomp Require Import all_ssreflect all_algebra zify.
From Verif Require Import Base Tactics BSpline BSplineProofs BSplineProofs2.
Set Implicit Arguments.
Unset Strict Implicit.
Unset Printing Implicit Defensive.
Import GRing.Theory Num.Theory Order.Theory.
Local Open Scope ring_scope.

Section C78.
Variable R : realFieldType.
Implicit Types (knots : seq R) (a : R).

(** Value of the [n]-th function at [a]. *)
Definition value (bs : seq (seq R * seq R * nat)) (n : nat) a : R := nth 0 (bspline_values bs a) n.

(** The basis is built exactly for degrees 1 to 5 and more knots than the degree, with one function
    per knot. *)
Theorem C78_fit knots k per :
  (forall bs, get_bspline_basis knots k per = Ok bs ->
     [/\ (0 < k)%N, (k <= 5)%N, (k < size knots)%N & forall a, size (bspline_values bs a) = size knots])
  /\ ((0 < k)%N -> (k <= 5)%N -> (k < size knots)%N -> exists bs, get_bspline_basis knots k per = Ok bs)
  /\ (forall e, get_bspline_basis knots k per = Err e -> e = TypeError).
Proof.
rewrite /get_bspline_basis /splrep_knots.
split; [|split].
- case H1: ((0 < k) && (k <= 5))%N => //=; case H2: (k < size knots)%N => //= bs [<-].
  by case/andP: H1 => -> -> ; split=> // a; rewrite size_map size_mkseq.
- by move=> -> -> -> /=; eexists.
- by move=> e; case: (_ && _) => //=; [case: (_ < _)%N => //= -[<-] | case=> <-].
Qed.

Lemma valueE knots k per bs n a : get_bspline_basis knots k per = Ok bs -> (n < size knots)%N ->
  value bs n a = sval (if per then percur_knots k knots else curfit_knots k knots) k n a.
Proof.
rewrite /get_bspline_basis /splrep_knots; case: (_ && _) => //=; case: (_ < _)%N => //= -[<-] nk.
by rewrite /value /bspline_values (nth_map ([::], [::], 0%N)) ?size_mkseq // nth_mkseq.
Qed.

Section Plain.
Variables (knots : seq R) (k : nat) (bs : seq (seq R * seq R * nat)).
Hypothesis ok : get_bspline_basis knots k false = Ok bs.
Hypothesis inc : sorted <%R knots.
Local Notation m := (size knots).
Local Notation t := (curfit_knots k knots).

Let k0 : (0 < k)%N. Proof. by have [/(_ _ ok)[]] := C78_fit knots k false. Qed.
Let km : (k < m)%N. Proof. by have [/(_ _ ok)[]] := C78_fit knots k false. Qed.
Let good : good_knots t k. Proof. exact: curfit_good. Qed.
Let lm a : (interval t k a < m)%N.
Proof. by have [_] := intervalP a good; rewrite size_curfit //; slia. Qed.
Let Tk : nth 0 t k = nth 0 knots 0. Proof. by rewrite curfitE ?leqnn //; slia. Qed.
Let Tm : nth 0 t (size t - k.+1) = nth 0 knots m.-1.
Proof. by rewrite size_curfit // addnK curfitE ?ifF //; slia. Qed.

(** The functions sum to one, everywhere. *)
Theorem C78_unity a : \sum_(v <- bspline_values bs a) v = 1.
Proof.
have [/(_ _ ok)[_ _ _ sz] _] := C78_fit knots k false.
rewrite (big_nth 0) sz big_mkord -(sval_unity good (lm a)); apply: eq_bigr => n _; exact: (valueE a ok (ltn_ord n)).
Qed.

(** Every polynomial up to the degree is a combination of them, with coefficients that do not
    depend on the point. *)
Theorem C78_polynomials (p : {poly R}) : (size p <= k.+1)%N ->
  exists c : seq R, size c = m /\ forall a, \sum_(n < m) nth 0 c n * value bs n a = p.[a].
Proof.
move=> sp; exists (mkseq (mcoef t k p) m); split; first exact: size_mkseq.
move=> a; rewrite -(sval_poly good sp (lm a)); apply: eq_bigr => n _.
by rewrite (valueE a ok) // nth_mkseq.
Qed.

(** In the range of the knots the values lie between 0 and 1. *)
Theorem C78_bounds n a : nth 0 knots 0 <= a -> a <= nth 0 knots m.-1 -> (n < m)%N -> 0 <= value bs n a <= 1.
Proof.
rewrite -Tk -Tm => h1 h2 nm; rewrite (valueE a ok) //; apply/andP; split; first exact: sval_ge0.
exact: (sval_le1 good (lm a)).
Qed.

(** At most degree + 1 consecutive functions do not vanish at a point. *)
Theorem C78_local a : exists l, forall n, (n < m)%N -> value bs n a != 0 -> (l <= n <= l + k)%N.
Proof.
have [h1 _ _ _ _] := intervalP a good.
exists (interval t k a - k)%N => n nm; rewrite (valueE a ok) //; apply: contraR => h.
by apply/eqP/(sval_out good); slia.
Qed.

(** A function vanishes far from its knot: [k + 1] knots away. *)
Theorem C78_support n a : nth 0 knots 0 <= a -> a <= nth 0 knots m.-1 -> (n < m)%N ->
  (k < n)%N && (a < nth 0 knots (n - k.+1)) || (n + k.+1 < m)%N && (nth 0 knots (n + k.+1) < a) -> value bs n a = 0.
Proof.
move=> h1 h2 nm h; rewrite (valueE a ok) //; rewrite -Tk in h1; rewrite -Tm in h2.
apply: (sval_support good h1 h2); first by rewrite size_curfit //; slia.
have mid i j p : (i <= j)%N -> (j < m)%N -> p <= nth 0 knots i -> p <= (nth 0 knots i + nth 0 knots j) / 2%:R.
  move=> ij jm pi; rewrite ler_pdivl_mulr ?ltr0n // mulr_natr mulr2n; apply: ler_add => //.
  by apply: (le_trans pi); exact: X_le.
have mid' i j p : (i <= j)%N -> (j < m)%N -> nth 0 knots j <= p -> (nth 0 knots i + nth 0 knots j) / 2%:R <= p.
  move=> ij jm pj; rewrite ler_pdivr_mulr ?ltr0n // mulr_natr mulr2n; apply: ler_add => //.
  by apply: le_trans pj; exact: X_le.
case/orP: h => /andP[kn ha]; apply/orP; [left|right].
  apply: (lt_le_trans ha); rewrite curfitE //; last by slia.
  rewrite ifF ?nm; last by slia.
  by rewrite /interior; case: ifP => o; [apply: X_le => //; slia | apply: mid; [slia|slia|apply: X_le => //; slia]].
apply: le_lt_trans ha; rewrite curfitE //; last by slia.
rewrite ifF ?kn; last by slia.
rewrite /interior; case: ifP => o; first by apply: X_le => //; slia.
by apply: mid'; [slia|slia|apply: X_le => //; slia].
Qed.

(** At the first knot only the first function is not zero, at the last knot only the last one. *)
Theorem C78_ends n : (n < m)%N -> value bs n (nth 0 knots 0) = (n == 0%N)%:R
  /\ value bs n (nth 0 knots m.-1) = (n == m.-1)%:R.
Proof.
move=> nm; rewrite !(valueE _ ok) //.
have [mono sz incr] := good; have st := size_curfit k0 km; split.
  have e : interval t k (nth 0 knots 0) = k.
    apply: (interval_unique good) => //; rewrite ?Tk //; first by slia.
    by rewrite -Tk; apply: incr => //; slia.
  case: (leqP n k) => nk; last by rewrite (sval_out good) ?e ?nk ?orbT // (_ : (_ == _) = false) //; slia.
  rewrite (sval_in good) e //; last by slia.
  rewrite subnn subn0 (h_left (k := k)) //; [by slia | by apply: incr => //; slia |].
  by move=> i ik; rewrite curfitE ?ifT //; slia.
have e : interval t k (nth 0 knots m.-1) = m.-1.
  by rewrite (interval_last good) ?Tm // st; slia.
case: (leqP m.-1 (n + k)) => nk; last first.
  by rewrite (sval_out good) ?e ?nk // (_ : (_ == _) = false) //; slia.
rewrite (sval_in good) e //; last by slia.
rewrite (h_right (k := k)) //; [|by slia|by slia|by apply: incr => //; slia| |by slia].
- by congr (_%:R); congr nat_of_bool; apply/eqP/eqP; slia.
- by move=> i ik; rewrite curfitE ?ifF //; slia.
Qed.
End Plain.

(** The default knots are increasing, from the smallest to the largest value. *)
Theorem C78_default (lo hi : R) n : lo < hi -> (1 < n)%N ->
  [/\ size (linspace lo hi n) = n, sorted <%R (linspace lo hi n), nth 0 (linspace lo hi n) 0 = lo
    & nth 0 (linspace lo hi n) n.-1 = hi].
Proof.
move=> lh n1; have n0 : 0 < n.-1%:R :> R by rewrite ltr0n; lia.
split; [exact: size_mkseq | | by rewrite nth_mkseq ?mulr0 ?addr0 //; lia |].
  apply: (path_sorted (x := lo - 1)); rewrite /linspace /mkseq.
  have st i : lo + (hi - lo) / n.-1%:R * i%:R < lo + (hi - lo) / n.-1%:R * i.+1%:R.
    by rewrite ltr_add2l ltr_pmul2l ?ltr_nat // divr_gt0 // subr_gt0.
  have : forall i z, z < lo + (hi - lo) / n.-1%:R * i%:R ->
     path <%R z [seq lo + (hi - lo) / n.-1%:R * i0%:R | i0 <- iota i n].
    elim: (n) (n.-1%:R : R) st => //= q IH d st i z zi; rewrite zi /=; exact: IH.
  by apply; rewrite mulr0 addr0 ltr_subl_addr ltr_addl ltr01.
rewrite nth_mkseq; last lia.
by rewrite divfK ?gt_eqF // addrC subrK.
Qed.

(** ** Periodic splines *)
Section Periodic.
Variables (knots : seq R) (k : nat) (bs : seq (seq R * seq R * nat)).
Hypothesis ok : get_bspline_basis knots k true = Ok bs.
Hypothesis inc : sorted <%R knots.
Local Notation m := (size knots).
Local Notation t := (percur_knots k knots).

Let k0 : (0 < k)%N. Proof. by have [/(_ _ ok)[]] := C78_fit knots k true. Qed.
Let km : (k < m)%N. Proof. by have [/(_ _ ok)[]] := C78_fit knots k true. Qed.
Let good : good_knots t k. Proof. exact: percur_good. Qed.
Let Tk : nth 0 t k = nth 0 knots 0.
Proof. by rewrite percurE ?ltnn ?subnn ?ifT //; slia. Qed.
Let Tm : nth 0 t (size t - k.+1) = nth 0 knots m.-1.
Proof.
rewrite size_percur percurE; last by slia.
rewrite ifF; last by slia.
rewrite ifT; last by slia.
rewrite (_ : m + 2 * k - k.+1 - k = m.-1)%N; last by slia.
exact: u_last.
Qed.

(** The functions sum to one away from the right end: left of the knot [m - k - 1]. *)
Theorem C78_periodic_partial a : a < nth 0 knots (m - k.+1) -> \sum_(v <- bspline_values bs a) v = 1.
Proof.
move=> ha; have [/(_ _ ok)[_ _ _ sz] _] := C78_fit knots k true.
have lm : (interval t k a < m)%N.
  rewrite ltnNge; apply/negP => h; have [h1 h2 _ h4 _] := intervalP a good; have [mono _ _] := good.
  rewrite size_percur in h2.
  have : nth 0 t m <= a.
    case: h4 => [|h4]; first by slia.
    by apply: le_trans h4; apply: mono => //; rewrite size_percur; slia.
  rewrite percurE; last by slia.
  rewrite ifF; last by slia.
  rewrite ifT; last by slia.
  rewrite leNgt => /negP; apply; apply: (lt_le_trans ha); rewrite /period_knot.
  case: ifP => _; first by apply: X_le => //; slia.
  rewrite ler_pdivl_mulr ?ltr0n // mulr_natr mulr2n; apply: ler_add; apply: X_le => //; slia.
rewrite (big_nth 0) sz big_mkord -(sval_unity good lm); apply: eq_bigr => n _; exact: (valueE a ok (ltn_ord n)).
Qed.

(** But they are not periodic, for any degree and knots: the first function is positive at the first
    knot and zero at the last one. *)
Theorem C78_not_periodic : (2 < m)%N ->
  0 < value bs 0 (nth 0 knots 0) /\ value bs 0 (nth 0 knots m.-1) = 0.
Proof.
move=> m2; rewrite !(valueE _ ok); [|by slia|by slia].
have [mono sz incr] := good; have st := size_percur knots k; split.
  have lt : nth 0 knots 0 < nth 0 t k.+1 by rewrite -Tk; apply: incr => //; slia.
  have e : interval t k (nth 0 knots 0) = k.
    by apply: (interval_unique good) => //; rewrite ?Tk //; slia.
  rewrite (sval_in good) e //; apply: (h_first_gt0 (k := k)) => //; first by slia.
  by apply: incr => //; slia.
by apply: (sval_out good); rewrite (interval_last good) ?Tm // st; slia.
Qed.

(** And from degree two they do not sum to one at the last knot. *)
Theorem C78_periodic_sum : (1 < k)%N -> \sum_(v <- bspline_values bs (nth 0 knots m.-1)) v < 1.
Proof.
move=> k1; have [/(_ _ ok)[_ _ _ sz] _] := C78_fit knots k true.
have [mono _ incr] := good; have st := size_percur knots k.
set a := nth 0 knots m.-1.
have e : interval t k a = (m + k).-2 by rewrite (interval_last good) ?Tm // st; slia.
have full : \sum_(n < (m + k).-1) sval t k n a = 1 by apply: (sval_unity good); rewrite e; slia.
have ge0 n : 0 <= sval t k n a.
  by apply: (sval_ge0 good); rewrite ?Tk ?Tm //; apply: X_le => //; slia.
have pos : 0 < sval t k (m + k).-2 a.
  rewrite (sval_in good) e //; last by slia.
  rewrite (_ : (m + k).-2 - ((m + k).-2 - k) = k)%N; last by slia.
  apply: (h_last_gt0 (k := k)) => //; [by slia|by slia|by apply: incr; slia|].
  rewrite /a -Tm (_ : size t - k.+1 = (m + k).-2.+1)%N; last by slia.
  by apply: incr; slia.
have -> : \sum_(v <- bspline_values bs a) v = \sum_(0 <= n < m) sval t k n a.
  by rewrite (big_nth 0) sz big_nat_cond [RHS]big_nat_cond; apply: eq_bigr => n /andP[/andP[_ nm] _]; exact: (valueE a ok nm).
rewrite -full -[X in _ < X](big_mkord xpredT (fun n => sval t k n a)).
rewrite (@big_cat_nat _ _ _ m 0 (m + k).-1) //=; last by slia.
rewrite ltr_addl (_ : (m + k).-1 = (m + k).-2.+1)%N; last by slia.
rewrite big_nat_recr /=; last by slia.
by rewrite ltr_paddl //; apply: sumr_ge0.
Qed.
End Periodic.
End C78.
Print Assumptions C78_fit.
Print Assumptions C78_unity.
Print Assumptions C78_polynomials.
Print Assumptions C78_bounds.
Print Assumptions C78_local.
Print Assumptions C78_support.
Print Assumptions C78_ends.
Print Assumptions C78_default.
Print Assumptions C78_periodic_partial.
Print Assumptions C78_not_periodic.
Print Assumptions C78_periodic_sum.

(** ** Examples: degree 3, six knots *)
Section Example.
Variable R : realFieldType.
Definition ex_knots : seq R := linspace 0 5%:R 6.
Lemma ex_sorted : sorted <%R ex_knots /\ size ex_knots = 6%N.
Proof. by have [->] := @C78_default R 0 5%:R 6 (ltr0Sn _ _) isT. Qed.
Example C78_example per : exists bs, get_bspline_basis ex_knots 3 per = Ok bs /\ sorted <%R ex_knots /\ (2 < size ex_knots)%N.
Proof.
have [s sz] := ex_sorted; have [_ [H _]] := C78_fit ex_knots 3 per.
have [bs E] : exists bs, get_bspline_basis ex_knots 3 per = Ok bs by apply: H; rewrite ?sz.
by exists bs; rewrite sz.
Qed.
(** The hat functions of degree one on the knots 0, 1, 2. *)
Example C78_hats_example : exists bs, get_bspline_basis [:: 0; 1; 2%:R : R] 1 false = Ok bs
  /\ bspline_values bs (2%:R^-1) = [:: 2%:R^-1; 2%:R^-1; 0].
Proof.
eexists; split; first by reflexivity.
have e : interval (curfit_knots 1 [:: 0; 1; 2%:R : R]) 1 2%:R^-1 = 1%N.
  rewrite /interval /= /curfit_knots /= /interior /=.
  by rewrite invf_ge1 ?ltr0n // (ler_nat R 2 1).
rewrite /bspline_values /= /splev e /curfit_knots /= /interior /= !big_ord_recl !big_ord0 /= /bump /=.
have h : 1 - 2%:R^-1 = 2%:R^-1 :> R.
  by apply/eqP; rewrite subr_eq -[2%:R^-1]div1r -splitr.
rewrite subr0 oner_eq0 divr1 !mul1r !mul0r !addr0 !add0r h subr0.
by [].
Qed.
End Example.

(** False: splines declared periodic take the same values at both ends of the period. *)
Theorem C78_periodic_refuted (R : realFieldType) : exists (knots : seq R) k bs n,
  [/\ sorted <%R knots, get_bspline_basis knots k true = Ok bs, (n < size knots)%N
    & value bs n (nth 0 knots 0) <> value bs n (nth 0 knots (size knots).-1)].
Proof.
have [bs [E [s sz]]] := C78_example R true.
exists (ex_knots R), 3%N, bs, 0%N; split=> //.
by have [h ->] := C78_not_periodic E s sz => e; rewrite e ltxx in h.
Qed.
Print Assumptions C78_periodic_refuted.

(** False: periodic splines sum to one, so that removing the last one removes the constant. *)
Theorem C78_periodic_unity_refuted (R : realFieldType) : exists (knots : seq R) k bs a,
  [/\ sorted <%R knots, get_bspline_basis knots k true = Ok bs, nth 0 knots 0 <= a <= nth 0 knots (size knots).-1
    & \sum_(v <- bspline_values bs a) v <> 1].
Proof.
have [bs [E [s sz]]] := C78_example R true.
exists (ex_knots R), 3%N, bs, (nth 0 (ex_knots R) (size (ex_knots R)).-1); split=> //.
  by rewrite lexx andbT; have [_ _ -> e] := @C78_default R 0 5%:R 6 (ltr0Sn _ _) isT; rewrite (ex_sorted R).2 e ler0n.
by have := C78_periodic_sum E s (isT : (1 < 3)%N) => + e; rewrite e ltxx.
Qed.
Print Assumptions C78_periodic_unity_refuted.

(** The splines themselves: degree, unit coefficients, and the knots of FITPACK.  The end knots are
    repeated; in between, knots at the given points for odd degrees, half way for even ones. *)
Theorem C78_knots (R : realFieldType) (knots : seq R) k bs n :
  get_bspline_basis knots k false = Ok bs -> sorted <%R knots -> (n < size knots)%N ->
  exists t c, [/\ nth ([::], [::], 0%N) bs n = (t, c, k), size t = (size knots + k + 1)%N,
    forall i, (i < size t)%N -> nth 0 c i = (i == n)%:R,
    forall i, (i <= k)%N -> nth 0 t i = nth 0 knots 0 /\ nth 0 t (size knots + i) = nth 0 knots (size knots).-1
  & forall i, (k < i < size knots)%N -> forall j,
      (odd k -> (i = j + (k + 1) %/ 2)%N -> nth 0 t i = nth 0 knots j)
      /\ (~~ odd k -> (i = j + k %/ 2 + 1)%N -> nth 0 t i = (nth 0 knots j + nth 0 knots j.+1) / 2%:R)].
Proof.
move=> ok inc nm; have [k0 _ km _] := proj1 (C78_fit knots k false) _ ok.
move: ok; rewrite /get_bspline_basis /splrep_knots; case: (_ && _) => //; rewrite km => -[<-].
exists (curfit_knots k knots); eexists; rewrite nth_mkseq //; split; first by [].
- by rewrite size_curfit // addn1 addnS.
- by move=> i li; rewrite nth_mkseq //; case: eqP.
- move=> i ik; rewrite !curfitE //; [|slia|slia]; rewrite ik; split=> //.
  by rewrite ifF ?ifF //; slia.
- move=> i /andP[ki im] j; rewrite curfitE //; last by slia.
  rewrite ifF ?im; last by slia.
  rewrite /interior; split=> [o e|/negbTE o e]; rewrite o.
    by congr nth; slia.
  by have -> : (i - k.+1 + k./2 = j)%N by slia.
Qed.
Print Assumptions C78_knots.

(** Degree two on the knots 0, 1, 4, 9: one interior knot, half way between 1 and 4. *)
Example C78_knots_example (R : realFieldType) : exists t c bs,
  [/\ get_bspline_basis [:: 0; 1; 4%:R; 9%:R : R] 2 false = Ok bs, nth ([::], [::], 0%N) bs 0 = (t, c, 2%N)
    & t = [:: 0; 0; 0; 5%:R / 2%:R; 9%:R; 9%:R; 9%:R]].
Proof.
eexists _, _, _; split; [by reflexivity|by reflexivity|].
by rewrite /curfit_knots /interior /= -mulrS.
Qed.
