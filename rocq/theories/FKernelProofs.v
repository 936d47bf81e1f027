(** * Proofs about the Volterra inversion routines. *)
From mathcomp Require Import all_ssreflect all_algebra.
From mathcomp Require Import zify.
From Verif Require Import Base FKernel Quadrature FKernelSpec.
Set Implicit Arguments.
Unset Strict Implicit.
Unset Printing Implicit Defensive.
Import GRing.Theory Num.Theory.
Local Open Scope ring_scope.

(** ** Forward substitution *)
Section Forward.
Variables (T : Type) (x0 : T).
Implicit Types (K : seq T).

Definition causal (lo hi : nat) (g : nat -> seq T -> T) :=
  forall i K K', (lo <= i < hi)%N ->
    (forall j, (j < i)%N -> nth x0 K j = nth x0 K' j) -> g i K = g i K'.

Lemma forward_ok lo hi (body : nat -> seq T -> res (seq T)) g K :
  (lo <= hi)%N -> (hi <= size K)%N ->
  (forall i K', (lo <= i < hi)%N -> size K' = size K -> body i K' = wr K' i (g i K')) ->
  causal lo hi g ->
  exists2 K', for_ lo hi body K = Ok K' &
    [/\ size K' = size K,
        forall j, ~~ (lo <= j < hi)%N -> nth x0 K' j = nth x0 K j
      & forall i, (lo <= i < hi)%N -> nth x0 K' i = g i K'].
Proof.
move=> lohi hisz bodyE cg.
pose P n K' := [/\ size K' = size K,
   forall j, ~~ (lo <= j < n)%N -> nth x0 K' j = nth x0 K j
  & forall i, (lo <= i < n)%N -> nth x0 K' i = g i K'].
have [||K' E [sz H1 H2]] := @for_ind _ P lo hi body K lohi.
- by split=> // i; lia.
- move=> i K' rg [sz H1 H2].
  have lt : (i < size K')%N by lia.
  have [K'' E [sz'' H]] := wr_total x0 (g i K') lt.
  exists K''; first by rewrite bodyE.
  split; first by rewrite sz''.
    by move=> j rj; rewrite H; case: eqP => [|_]; [lia | apply: H1; lia].
  move=> j rj; rewrite H; case: eqP => [->|ne].
    by apply: cg => // k lk; rewrite H; case: eqP => //; lia.
  rewrite H2; last by lia.
  by apply: cg => [|k lk]; [lia | rewrite H; case: eqP => //; lia].
by exists K'.
Qed.

Lemma forward_uniq lo hi g K K' :
  causal lo hi g -> size K = size K' ->
  (forall j, ~~ (lo <= j < hi)%N -> nth x0 K j = nth x0 K' j) ->
  (forall i, (lo <= i < hi)%N -> nth x0 K i = g i K) ->
  (forall i, (lo <= i < hi)%N -> nth x0 K' i = g i K') ->
  K = K'.
Proof.
move=> cg sz H H1 H2; apply: (@eq_from_nth _ x0) => // i _.
elim/ltn_ind: i => i IH.
case: (boolP (lo <= i < hi)%N) => [rg|]; last exact: H.
by rewrite H1 // H2 //; apply: cg.
Qed.

End Forward.

(** ** Quadrature loops *)
Section Quad.
Variables (R : realFieldType) (o d m : nat).
Implicit Types (dt : R) (B : seq 'M[R]_(o, d)) (K : seq 'M[R]_(d, m)).

Lemma sum_loop lo n (body : nat -> 'M[R]_(o, m) -> res 'M[R]_(o, m)) (f : nat -> 'M[R]_(o, m)) a :
  (forall j acc, (lo <= j < n)%N -> body j acc = Ok (acc + f j)) ->
  for_ lo n body a = Ok (a + \sum_(lo <= j < n) f j).
Proof.
move=> H; case: (leqP n lo) => [le|lt]; first by rewrite for_geq // big_geq // addr0.
have [||s E Es] := @for_ind _ (fun k acc => acc = a + \sum_(lo <= j < k) f j) lo n body a (ltnW lt).
- by rewrite big_geq // addr0.
- move=> i s rg ->; exists (a + \sum_(lo <= j < i) f j + f i); first exact: H.
  by rewrite big_nat_recr /=; [rewrite addrA | lia].
- by rewrite E Es.
Qed.

Lemma rect_integralE dt n B K :
  (n < size B)%N -> (n <= size K)%N ->
  rect_integral dt n B K = Ok (dt *: \sum_(j < n) B`_(n - j) *m K`_j).
Proof.
move=> sB sK.
rewrite /rect_integral (sum_loop (f := fun j => dt *: (B`_(n - j) *m K`_j))).
  by rewrite add0r big_mkord scaler_sumr.
move=> j acc rg; rewrite (rdE 0) /=; last by lia.
by rewrite (rdE 0) //=; lia.
Qed.

Lemma midpoint_integralE dt n B K :
  (2 * n < size B)%N -> (n <= size K)%N ->
  midpoint_integral dt n B K = Ok (dt *: \sum_(j < n) B`_(2 * (n - j)) *m K`_j).
Proof.
move=> sB sK.
rewrite /midpoint_integral (sum_loop (f := fun j => dt *: (B`_(2 * (n - j)) *m K`_j))).
  by rewrite add0r big_mkord scaler_sumr.
move=> j acc rg; rewrite (rdE 0) /=; last by lia.
by rewrite (rdE 0) //=; lia.
Qed.

Lemma trapz_integralE dt n B K :
  (n < size B)%N -> (0 < size K)%N -> (n <= size K)%N ->
  trapz_integral dt n B K =
  Ok ((2^-1 * dt) *: (B`_n *m K`_0) + dt *: \sum_(1 <= j < n) B`_(n - j) *m K`_j).
Proof.
move=> sB s0 sK.
rewrite /trapz_integral (rdE 0) //= (rdE 0) //=.
rewrite (sum_loop (f := fun j => dt *: (B`_(n - j) *m K`_j))) ?scaler_sumr //.
move=> j acc rg; rewrite (rdE 0) /=; last by lia.
by rewrite (rdE 0) //=; lia.
Qed.

End Quad.

Section QuadRules.
Variables (R : realFieldType) (V : lmodType R).
Implicit Types (h : R) (f : nat -> V) (n : nat).

(** The trapezoid rule in the "end points halved" form used by the loops. *)
Lemma trapz_ruleE h f n : (0 < n)%N ->
  trapz_rule h f n =
  (2^-1 * h) *: f 0%N + h *: (\sum_(1 <= j < n) f j) + (2^-1 * h) *: f n.
Proof.
case: n => // n _; rewrite /trapz_rule.
rewrite -scaler_sumr big_split /= !scalerDr.
rewrite -[X in _ *: (_ *: X) + _](big_mkord xpredT f).
rewrite -[X in _ + _ *: (_ *: X)](big_mkord xpredT (fun j => f j.+1)).
rewrite big_nat_recl // [X in _ + _ *: (_ *: X)]big_nat_recr //= !scalerDr !scalerA.
rewrite big_add1 /= [h / 2]mulrC -!addrA; congr (_ + _).
rewrite !addrA; congr (_ + _).
by rewrite -scalerDl ![2^-1 * _]mulrC -splitr.
Qed.

End QuadRules.

Section Algebra.
Variables (R : realFieldType) (d m : nat).

Lemma finv_ok (A A' : 'M[R]_d) : finv A = Ok A' -> A \in unitmx /\ A' = invmx A.
Proof. by rewrite /finv; case: ifP => // uA [<-]. Qed.

Lemma finvE (A : 'M[R]_d) : A \in unitmx -> finv A = Ok (invmx A).
Proof. by rewrite /finv => ->. Qed.

Lemma solve_eq (A : 'M[R]_d) (x y : 'M[R]_(d, m)) :
  A \in unitmx -> (x = -1 *: (invmx A *m y)) <-> (y + A *m x = 0).
Proof.
move=> uA; split=> [->|/eqP].
  by rewrite scaleN1r mulmxN mulKVmx // addrN.
by rewrite addr_eq0 => /eqP ->; rewrite mulmxN scaleN1r opprK mulKmx.
Qed.

Lemma solve_eq2 (A : 'M[R]_d) (x y : 'M[R]_(d, m)) :
  A \in unitmx -> (x = invmx A *m y) <-> (A *m x = y).
Proof. by move=> uA; split=> [->|<-]; rewrite ?mulKVmx ?mulKmx. Qed.

End Algebra.

Lemma addr0_iff (V : zmodType) (x y : V) : x + y = 0 <-> x = - y.
Proof. by split=> [/eqP|->]; [rewrite addr_eq0 => /eqP | rewrite addNr]. Qed.

Lemma guardE b e : guard b e = if b then Ok tt else Err e. Proof. by []. Qed.

Lemma guard_ok b e u : guard b e = Ok u -> b.
Proof. by case: b. Qed.

(** ** First kind, rectangles *)
Section Rect.
Variables (R : realFieldType) (d m : nat).
Implicit Types (dt : R) (B : seq 'M[R]_d) (D K buf : seq 'M[R]_(d, m)).

Definition rect_g dt B D (i : nat) K : 'M[R]_(d, m) :=
  -1 *: (invmx (dt *: B`_1) *m (dt *: (\sum_(j < i) B`_(i.+1 - j) *m K`_j) + D`_i.+1)).

Lemma rect_causal dt B D lo hi : causal 0 lo hi (rect_g dt B D).
Proof.
move=> i K K' _ H; rewrite /rect_g.
by rewrite (eq_bigr (fun j : 'I_i => B`_(i.+1 - j) *m K'`_j)) // => j _; rewrite H.
Qed.

Lemma rect_ok_conds buf dt B D K :
  kernel_first_kind_rect_buf buf dt B D = Ok K ->
  [/\ size D = size B, (1 < size B)%N & dt *: B`_1 \in unitmx].
Proof.
rewrite /kernel_first_kind_rect_buf => H.
unbind H u Hu; move/guard_ok/eqP: Hu => sD.
unbind H b1 Hb; case: (rd_ok 0 Hb) => s1 Eb; rewrite Eb in H.
by unbind H i0 Hi; case: (finv_ok Hi).
Qed.

Lemma rect_run buf dt B D :
  size buf = size B -> size D = size B -> (1 < size B)%N -> dt *: B`_1 \in unitmx ->
  exists2 K, kernel_first_kind_rect_buf buf dt B D = Ok K &
    [/\ size K = size B, K`_(size B).-1 = buf`_(size B).-1
      & forall i, (i < (size B).-1)%N -> K`_i = rect_g dt B D i K].
Proof.
move=> sbuf sD s1 uA; rewrite /kernel_first_kind_rect_buf sD eqxx /=.
rewrite (rdE 0) //= finvE //= (rdE 0) ?sD //=.
have s0 : (0 < size buf)%N by slia.
case: (wr_total (0 : 'M[R]_(d, m)) (-1 *: (invmx (dt *: B`_1) *m D`_1)) s0) => K0 E0 [sz0 H0].
rewrite E0 /=.
set body := (X in for_ _ _ X).
have [||||K -> [sz Hout Hin]] := @forward_ok _ 0 1 (size B).-1 body (rect_g dt B D) K0.
- by slia.
- by rewrite sz0; slia.
- move=> i K' rg szK'; rewrite /body.
  rewrite sliceE /=; [|by slia|by slia].
  rewrite sliceE /=; [|by slia|by slia].
  rewrite rect_integralE /=; first last.
  + by rewrite size_slice; slia.
  + by rewrite size_slice; slia.
  rewrite (rdE 0) /=; last by slia.
  rewrite (_ : \sum_(j < i) _ = \sum_(j < i) B`_(i.+1 - j) *m K'`_j) //.
  apply: eq_bigr => j _; have := ltn_ord j => lj.
  rewrite nth_slice; [|by slia|by slia|by slia].
  rewrite nth_slice; [|by slia|by slia|by slia].
  by congr (_`_ _ *m _); slia.
- exact: rect_causal.
exists K => //; split; first by rewrite sz sz0.
  by rewrite Hout ?H0; [case: eqP => //; slia | slia].
case=> [|i] rg; last by apply: Hin; slia.
rewrite Hout // H0 /= /rect_g big_ord0 scaler0 add0r //.
Qed.

Lemma rect_recE dt B D K : dt *: B`_1 \in unitmx ->
  solves_rect dt B D K <-> forall i, (i < (size B).-1)%N -> K`_i = rect_g dt B D i K.
Proof.
move=> uA.
have step i : K`_i = rect_g dt B D i K <->
    rect_rule dt (fun j => B`_(i.+1 - j) *m K`_j) i.+1 = - D`_i.+1.
  rewrite /rect_g solve_eq // /rect_rule big_ord_recr /= scalerDr subSnn.
  by rewrite -scalemxAl addrAC addr0_iff.
split=> [H i lt|H [|i] // lt].
  by apply/step; apply: H; slia.
by apply/step; apply: H; slia.
Qed.

Lemma rect_charact buf dt B D K :
  size buf = size B ->
  kernel_first_kind_rect_buf buf dt B D = Ok K <->
  ([/\ size D = size B, (1 < size B)%N & dt *: B`_1 \in unitmx] /\
   [/\ size K = size B, K`_(size B).-1 = buf`_(size B).-1 & solves_rect dt B D K]).
Proof.
move=> sbuf; split=> [E|[[sD s1 uA] [szK lastK sol]]].
  have [sD s1 uA] := rect_ok_conds E.
  have [K' E' [sz' lst' rec']] := rect_run sbuf sD s1 uA.
  by move: E'; rewrite E => -[->]; do !split=> //; apply/rect_recE.
have [K' -> [sz' lst' rec']] := rect_run sbuf sD s1 uA.
congr Ok; apply: (@forward_uniq _ 0 0 (size B).-1 (rect_g dt B D)) => //.
- exact: rect_causal.
- by rewrite sz' szK.
- move=> j; rewrite -leqNgt => le.
  case: (ltnP j (size B)) => lt; last by rewrite !nth_default ?sz' ?szK.
  by rewrite (_ : j = (size B).-1) ?lst' ?lastK //; slia.
- by apply/rect_recE.
Qed.

End Rect.

(** ** First kind, trapezoids *)
Section Trapz.
Variables (R : realFieldType) (d m : nat).
Implicit Types (dt : R) (B : seq 'M[R]_d) (D K buf : seq 'M[R]_(d, m)).

Definition trapz_num dt B (i : nat) K : 'M[R]_(d, m) :=
  (2^-1 * dt) *: (B`_i *m K`_0) + dt *: \sum_(1 <= j < i) B`_(i - j) *m K`_j.

Lemma trapz_num_causal dt B i K K' : (0 < i)%N ->
  (forall j, (j < i)%N -> K`_j = K'`_j) -> trapz_num dt B i K = trapz_num dt B i K'.
Proof.
move=> i0 H; rewrite /trapz_num H //.
by rewrite (eq_big_nat _ _ (F2 := fun j => B`_(i - j) *m K'`_j)) // => j lj; rewrite H //; lia.
Qed.

Lemma trapz_slices dt B K (i : nat) :
  (0 < i)%N -> (i < size B)%N -> (i < size K)%N ->
  trapz_integral dt i (drop 0 (take i.+1 B)) (drop 0 (take i.+1 K)) = Ok (trapz_num dt B i K).
Proof.
move=> i0 sB sK; rewrite trapz_integralE ?size_slice //; [|by slia|by slia].
rewrite /trapz_num !nth_slice ?subn0 // !add0n.
rewrite (eq_big_nat _ _ (F2 := fun j => B`_(i - j) *m K`_j)) // => j lj.
by rewrite !nth_slice //; slia.
Qed.

Lemma rect_slices dt B K (i : nat) :
  (i < size B)%N -> (i < size K)%N ->
  rect_integral dt i (drop 0 (take i.+1 B)) (drop 0 (take i.+1 K))
  = Ok (dt *: \sum_(j < i) B`_(i - j) *m K`_j).
Proof.
move=> sB sK; rewrite rect_integralE ?size_slice //; [|by slia|by slia].
rewrite (eq_bigr (fun j : 'I_i => B`_(i - j) *m K`_j)) // => j _.
by have := ltn_ord j => lj; rewrite !nth_slice //; slia.
Qed.

Lemma trapz_rule_num dt B i K : (0 < i)%N ->
  trapz_rule dt (fun j => B`_(i - j) *m K`_j) i
  = trapz_num dt B i K + (2^-1 * dt) *: (B`_0 *m K`_i).
Proof. by move=> i0; rewrite trapz_ruleE // subn0 subnn /trapz_num. Qed.

Definition trapz_g dt B D (i : nat) K : 'M[R]_(d, m) :=
  -1 *: (invmx ((2^-1 * dt) *: B`_0) *m (trapz_num dt B i K + D`_i)).

Lemma trapz_causal dt B D hi : causal 0 1 hi (trapz_g dt B D).
Proof.
move=> i K K' rg H; rewrite /trapz_g (@trapz_num_causal _ _ _ K K') //.
by case/andP: rg.
Qed.

Lemma trapz_ok_conds buf dt k0 B D K :
  kernel_first_kind_trapz_buf buf dt k0 B D = Ok K ->
  [/\ size D = size B, (0 < size B)%N & (2^-1 * dt) *: B`_0 \in unitmx].
Proof.
rewrite /kernel_first_kind_trapz_buf => H.
unbind H u Hu; move/guard_ok/eqP: Hu => sD.
unbind H b1 Hb; case: (rd_ok 0 Hb) => s1 Eb; rewrite Eb in H.
by unbind H i0 Hi; case: (finv_ok Hi).
Qed.

Lemma trapz_run buf dt k0 B D :
  size buf = size B -> size D = size B -> (0 < size B)%N ->
  (2^-1 * dt) *: B`_0 \in unitmx ->
  exists2 K, kernel_first_kind_trapz_buf buf dt k0 B D = Ok K &
    [/\ size K = size B, K`_0 = k0
      & forall i, (0 < i < size B)%N -> K`_i = trapz_g dt B D i K].
Proof.
move=> sbuf sD s1 uA; rewrite /kernel_first_kind_trapz_buf sD eqxx /=.
rewrite (rdE 0) //= finvE //=.
have s0 : (0 < size buf)%N by slia.
case: (wr_total (0 : 'M[R]_(d, m)) k0 s0) => K0 E0 [sz0 H0].
rewrite E0 /=.
set body := (X in for_ _ _ X).
have [||||K -> [sz Hout Hin]] := @forward_ok _ 0 1 (size B) body (trapz_g dt B D) K0.
- by slia.
- by slia.
- move=> i K' rg szK'; rewrite /body.
  rewrite sliceE /=; [|by slia|by slia].
  rewrite sliceE /=; [|by slia|by slia].
  rewrite trapz_slices /=; [|by slia|by slia|by slia].
  by rewrite (rdE 0) //; slia.
- exact: trapz_causal.
exists K => //; split=> //; first by rewrite sz sz0.
by rewrite Hout // H0.
Qed.

Lemma trapz_recE dt B D K : (2^-1 * dt) *: B`_0 \in unitmx ->
  solves_trapz dt B D K <-> forall i, (0 < i < size B)%N -> K`_i = trapz_g dt B D i K.
Proof.
move=> uA.
have step i : (0 < i)%N -> K`_i = trapz_g dt B D i K <->
    trapz_rule dt (fun j => B`_(i - j) *m K`_j) i = - D`_i.
  move=> i0; rewrite /trapz_g solve_eq // trapz_rule_num //.
  by rewrite -scalemxAl addrAC addr0_iff.
by split=> H i rg; apply/step; rewrite ?H //; case/andP: rg.
Qed.

Lemma trapz_charact buf dt k0 B D K :
  size buf = size B ->
  kernel_first_kind_trapz_buf buf dt k0 B D = Ok K <->
  ([/\ size D = size B, (0 < size B)%N & (2^-1 * dt) *: B`_0 \in unitmx] /\
   [/\ size K = size B, K`_0 = k0 & solves_trapz dt B D K]).
Proof.
move=> sbuf; split=> [E|[[sD s1 uA] [szK fstK sol]]].
  have [sD s1 uA] := trapz_ok_conds E.
  have [K' E' [sz' fst' rec']] := trapz_run k0 sbuf sD s1 uA.
  by move: E'; rewrite E => -[->]; do !split=> //; apply/trapz_recE.
have [K' -> [sz' fst' rec']] := trapz_run k0 sbuf sD s1 uA.
congr Ok; apply: (@forward_uniq _ 0 1 (size B) (trapz_g dt B D)) => //.
- exact: trapz_causal.
- by rewrite sz' szK.
- move=> [|j] rg; first by rewrite fst' fstK.
  by rewrite !nth_default ?sz' ?szK //; slia.
- by apply/trapz_recE.
Qed.

End Trapz.

(** ** Second kind *)
Section Second.
Variables (R : realFieldType) (d m : nat).
Implicit Types (dt : R) (Bd : seq 'M[R]_d) (Dd K buf : seq 'M[R]_(d, m)).

Definition rect2_g dt (B0 : 'M[R]_d) Bd Dd (i : nat) K : 'M[R]_(d, m) :=
  invmx B0 *m (dt *: (\sum_(j < i) Bd`_(i - j) *m K`_j) + Dd`_i).

Lemma rect2_causal dt B0 Bd Dd lo hi : causal 0 lo hi (rect2_g dt B0 Bd Dd).
Proof.
move=> i K K' rg H; rewrite /rect2_g.
by rewrite (eq_bigr (fun j : 'I_i => Bd`_(i - j) *m K'`_j)) // => j _; rewrite H.
Qed.

Lemma rect2_ok_conds buf dt k0 B0 Bd Dd K : size buf = size Bd ->
  kernel_second_kind_rect_buf buf dt k0 B0 Bd Dd = Ok K ->
  [/\ size Dd = size Bd, (0 < size Bd)%N & B0 \in unitmx].
Proof.
rewrite /kernel_second_kind_rect_buf => sbuf H.
unbind H u Hu; move/guard_ok/eqP: Hu => sD.
unbind H i0 Hi; case: (finv_ok Hi) => uA _.
by unbind H K1 HK; case: (wr_ok 0 HK) => s0 _ _; split=> //; slia.
Qed.

Lemma rect2_run buf dt k0 B0 Bd Dd :
  size buf = size Bd -> size Dd = size Bd -> (0 < size Bd)%N -> B0 \in unitmx ->
  exists2 K, kernel_second_kind_rect_buf buf dt k0 B0 Bd Dd = Ok K &
    [/\ size K = size Bd, K`_0 = k0
      & forall i, (0 < i < size Bd)%N -> K`_i = rect2_g dt B0 Bd Dd i K].
Proof.
move=> sbuf sD s1 uA; rewrite /kernel_second_kind_rect_buf sD eqxx /=.
rewrite finvE //=.
have s0 : (0 < size buf)%N by slia.
case: (wr_total (0 : 'M[R]_(d, m)) k0 s0) => K0 E0 [sz0 H0].
rewrite E0 /=.
set body := (X in for_ _ _ X).
have [||||K -> [sz Hout Hin]] := @forward_ok _ 0 1 (size Bd) body (rect2_g dt B0 Bd Dd) K0.
- by slia.
- by slia.
- move=> i K' rg szK'; rewrite /body.
  rewrite sliceE /=; [|by slia|by slia].
  rewrite sliceE /=; [|by slia|by slia].
  rewrite rect_slices /=; [|by slia|by slia].
  by rewrite (rdE 0) //; slia.
- exact: rect2_causal.
exists K => //; split=> //; first by rewrite sz sz0.
by rewrite Hout // H0.
Qed.

Lemma rect2_recE dt B0 Bd Dd K : B0 \in unitmx ->
  solves2_rect dt B0 Bd Dd K <->
  forall i, (0 < i < size Bd)%N -> K`_i = rect2_g dt B0 Bd Dd i K.
Proof.
move=> uA; split=> H i rg; first by rewrite /rect2_g solve_eq2 // H.
by have := H i rg; rewrite {1}/rect2_g solve_eq2.
Qed.

Lemma rect2_charact buf dt k0 B0 Bd Dd K :
  size buf = size Bd ->
  kernel_second_kind_rect_buf buf dt k0 B0 Bd Dd = Ok K <->
  ([/\ size Dd = size Bd, (0 < size Bd)%N & B0 \in unitmx] /\
   [/\ size K = size Bd, K`_0 = k0 & solves2_rect dt B0 Bd Dd K]).
Proof.
move=> sbuf; split=> [E|[[sD s1 uA] [szK fstK sol]]].
  have [sD s1 uA] := rect2_ok_conds sbuf E.
  have [K' E' [sz' fst' rec']] := rect2_run dt k0 sbuf sD s1 uA.
  by move: E'; rewrite E => -[->]; do !split=> //; apply/rect2_recE.
have [K' -> [sz' fst' rec']] := rect2_run dt k0 sbuf sD s1 uA.
congr Ok; apply: (@forward_uniq _ 0 1 (size Bd) (rect2_g dt B0 Bd Dd)) => //.
- exact: rect2_causal.
- by rewrite sz' szK.
- move=> [|j] rg; first by rewrite fst' fstK.
  by rewrite !nth_default ?sz' ?szK //; slia.
- by apply/rect2_recE.
Qed.

Definition trapz2_g dt (B0 : 'M[R]_d) Bd Dd (i : nat) K : 'M[R]_(d, m) :=
  invmx (B0 - (2^-1 * dt) *: Bd`_0) *m (trapz_num dt Bd i K + Dd`_i).

Lemma trapz2_causal dt B0 Bd Dd hi : causal 0 1 hi (trapz2_g dt B0 Bd Dd).
Proof.
move=> i K K' rg H; rewrite /trapz2_g (@trapz_num_causal _ _ _ _ _ _ K K') //.
by case/andP: rg.
Qed.

Lemma trapz2_ok_conds buf dt k0 B0 Bd Dd K :
  kernel_second_kind_trapz_buf buf dt k0 B0 Bd Dd = Ok K ->
  [/\ size Dd = size Bd, (0 < size Bd)%N & B0 - (2^-1 * dt) *: Bd`_0 \in unitmx].
Proof.
rewrite /kernel_second_kind_trapz_buf => H.
unbind H u Hu; move/guard_ok/eqP: Hu => sD.
unbind H b1 Hb; case: (rd_ok 0 Hb) => s1 Eb; rewrite Eb in H.
by unbind H i0 Hi; case: (finv_ok Hi).
Qed.

Lemma trapz2_run buf dt k0 B0 Bd Dd :
  size buf = size Bd -> size Dd = size Bd -> (0 < size Bd)%N ->
  B0 - (2^-1 * dt) *: Bd`_0 \in unitmx ->
  exists2 K, kernel_second_kind_trapz_buf buf dt k0 B0 Bd Dd = Ok K &
    [/\ size K = size Bd, K`_0 = k0
      & forall i, (0 < i < size Bd)%N -> K`_i = trapz2_g dt B0 Bd Dd i K].
Proof.
move=> sbuf sD s1 uA; rewrite /kernel_second_kind_trapz_buf sD eqxx /=.
rewrite (rdE 0) //= finvE //=.
have s0 : (0 < size buf)%N by slia.
case: (wr_total (0 : 'M[R]_(d, m)) k0 s0) => K0 E0 [sz0 H0].
rewrite E0 /=.
set body := (X in for_ _ _ X).
have [||||K -> [sz Hout Hin]] := @forward_ok _ 0 1 (size Bd) body (trapz2_g dt B0 Bd Dd) K0.
- by slia.
- by slia.
- move=> i K' rg szK'; rewrite /body.
  rewrite sliceE /=; [|by slia|by slia].
  rewrite sliceE /=; [|by slia|by slia].
  rewrite trapz_slices /=; [|by slia|by slia|by slia].
  by rewrite (rdE 0) //; slia.
- exact: trapz2_causal.
exists K => //; split=> //; first by rewrite sz sz0.
by rewrite Hout // H0.
Qed.

Lemma trapz2_recE dt B0 Bd Dd K : B0 - (2^-1 * dt) *: Bd`_0 \in unitmx ->
  solves2_trapz dt B0 Bd Dd K <->
  forall i, (0 < i < size Bd)%N -> K`_i = trapz2_g dt B0 Bd Dd i K.
Proof.
move=> uA.
have step i : (0 < i)%N -> K`_i = trapz2_g dt B0 Bd Dd i K <->
    B0 *m K`_i = trapz_rule dt (fun j => Bd`_(i - j) *m K`_j) i + Dd`_i.
  move=> i0; rewrite /trapz2_g solve_eq2 // trapz_rule_num //.
  rewrite mulmxBl -scalemxAl; split=> [/eqP|->].
    by rewrite subr_eq addrAC => /eqP.
  by rewrite addrAC addrK.
by split=> H i rg; apply/step; rewrite ?H //; case/andP: rg.
Qed.

Lemma trapz2_charact buf dt k0 B0 Bd Dd K :
  size buf = size Bd ->
  kernel_second_kind_trapz_buf buf dt k0 B0 Bd Dd = Ok K <->
  ([/\ size Dd = size Bd, (0 < size Bd)%N & B0 - (2^-1 * dt) *: Bd`_0 \in unitmx] /\
   [/\ size K = size Bd, K`_0 = k0 & solves2_trapz dt B0 Bd Dd K]).
Proof.
move=> sbuf; split=> [E|[[sD s1 uA] [szK fstK sol]]].
  have [sD s1 uA] := trapz2_ok_conds E.
  have [K' E' [sz' fst' rec']] := trapz2_run k0 sbuf sD s1 uA.
  by move: E'; rewrite E => -[->]; do !split=> //; apply/trapz2_recE.
have [K' -> [sz' fst' rec']] := trapz2_run k0 sbuf sD s1 uA.
congr Ok; apply: (@forward_uniq _ 0 1 (size Bd) (trapz2_g dt B0 Bd Dd)) => //.
- exact: trapz2_causal.
- by rewrite sz' szK.
- move=> [|j] rg; first by rewrite fst' fstK.
  by rewrite !nth_default ?sz' ?szK //; slia.
- by apply/trapz2_recE.
Qed.

End Second.
