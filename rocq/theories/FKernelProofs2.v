(** * Midpoint and Simpson inversion routines. *)
From mathcomp Require Import all_ssreflect all_algebra.
From mathcomp Require Import zify.
From Verif Require Import Base Tactics FKernel Quadrature FKernelSpec FKernelProofs.
Set Implicit Arguments.
Unset Strict Implicit.
Unset Printing Implicit Defensive.
Import GRing.Theory Num.Theory.
Local Open Scope ring_scope.

(** ** Midpoint *)
Section Midpoint.
Variables (R : realFieldType) (d m : nat).
Implicit Types (dt : R) (B : seq 'M[R]_d) (D K buf : seq 'M[R]_(d, m)).

(** The equation the routine solves: past kernel samples are multiplied by the
    correlation at the even lag [2(i-j)], the current one by the odd lag 1. *)
Definition midpoint_coded dt B D K (i : nat) : Prop :=
  (2 * dt) *: (\sum_(j < i) B`_(2 * (i - j)) *m K`_j + B`_1 *m K`_i) = - D`_(2 * i + 1).

Definition mid_g dt B D (i : nat) K : 'M[R]_(d, m) :=
  -1 *: (invmx ((2 * dt) *: B`_1)
           *m ((2 * dt) *: (\sum_(j < i) B`_(2 * (i - j)) *m K`_j) + D`_(2 * i).+1)).

Lemma mid_causal dt B D lo hi : causal 0 lo hi (mid_g dt B D).
Proof.
move=> i K K' rg H; rewrite /mid_g.
by rewrite (eq_bigr (fun j : 'I_i => B`_(2 * (i - j)) *m K'`_j)) // => j _; rewrite H.
Qed.

Lemma mid_ok_conds buf dt B D K :
  kernel_first_kind_midpoint_buf buf dt B D = Ok K ->
  [/\ size D = size B, (1 < size B)%N & (2 * dt) *: B`_1 \in unitmx].
Proof.
rewrite /kernel_first_kind_midpoint_buf => H.
unbind H u Hu; move/guard_ok/eqP: Hu => sD.
unbind H b1 Hb; case: (rd_ok 0 Hb) => s1 Eb; rewrite Eb in H.
by unbind H i0 Hi; case: (finv_ok Hi).
Qed.

(** Indices computed by the loop (0 is computed before it). *)
Definition mid_hi B := maxn 1 ((size B).-1 %/ 2).

Lemma mid_hi_len B : (1 < size B)%N -> (mid_hi B <= midpoint_len (size B))%N.
Proof. by rewrite /mid_hi /midpoint_len => s1; lia. Qed.

Lemma mid_run buf dt B D :
  size buf = midpoint_len (size B) -> size D = size B -> (1 < size B)%N ->
  (2 * dt) *: B`_1 \in unitmx ->
  exists2 K, kernel_first_kind_midpoint_buf buf dt B D = Ok K &
    [/\ size K = midpoint_len (size B),
        forall j, (mid_hi B <= j)%N -> K`_j = buf`_j
      & forall i, (i < mid_hi B)%N -> K`_i = mid_g dt B D i K].
Proof.
move=> sbuf sD s1 uA; rewrite /kernel_first_kind_midpoint_buf sD eqxx /=.
rewrite (rdE 0) //= finvE //= (rdE 0) ?sD //=.
have s0 : (0 < size buf)%N by rewrite sbuf /midpoint_len.
case: (wr_total (0 : 'M[R]_(d, m)) (-1 *: (invmx ((2 * dt) *: B`_1) *m D`_1)) s0) => K0 E0 [sz0 H0].
rewrite E0 /=.
set body := (X in for_ _ _ X).
have -> : for_ 1 ((size B).-1 %/ 2) body K0 = for_ 1 (mid_hi B) body K0.
  by rewrite /mid_hi /for_; congr (forM (iota _ _)); lia.
have [||||K -> [sz Hout Hin]] := @forward_ok _ 0 1 (mid_hi B) body (mid_g dt B D) K0.
- by rewrite /mid_hi; slia.
- by have := mid_hi_len s1; slia.
- move=> i K' rg szK'; rewrite /body.
  have hi := mid_hi_len s1.
  have iB : (2 * i + 1 < size B)%N by move: rg; rewrite /mid_hi; slia.
  have iK : (i < size K')%N by slia.
  rewrite sliceE /=; [|by slia|by slia].
  rewrite sliceE /=; [|by slia|by slia].
  rewrite midpoint_integralE /=; first last.
  + by rewrite size_slice; slia.
  + by rewrite size_slice; slia.
  rewrite (rdE 0) /=; last by slia.
  rewrite (_ : \sum_(j < i) _ = \sum_(j < i) B`_(2 * (i - j)) *m K'`_j) //.
  apply: eq_bigr => j _; have := ltn_ord j => lj.
  by rewrite !nth_slice //; slia.
- exact: mid_causal.
exists K => //; split; first by rewrite sz sz0 sbuf.
  move=> j lj; rewrite Hout ?H0; last by slia.
  by case: eqP => // j0; move: lj; rewrite j0 /mid_hi; lia.
case=> [|i] rg; last by apply: Hin; slia.
by rewrite Hout // H0 /= /mid_g big_ord0 scaler0 add0r.
Qed.

Lemma mid_recE dt B D K i : (2 * dt) *: B`_1 \in unitmx ->
  midpoint_coded dt B D K i <-> K`_i = mid_g dt B D i K.
Proof.
move=> uA; rewrite /mid_g solve_eq // /midpoint_coded scalerDr -scalemxAl.
by rewrite addrAC addr0_iff addn1.
Qed.

Lemma mid_charact buf dt B D K :
  size buf = midpoint_len (size B) ->
  kernel_first_kind_midpoint_buf buf dt B D = Ok K <->
  ([/\ size D = size B, (1 < size B)%N & (2 * dt) *: B`_1 \in unitmx] /\
   [/\ size K = midpoint_len (size B),
       forall j, (mid_hi B <= j)%N -> K`_j = buf`_j
     & forall i, (i < mid_hi B)%N -> midpoint_coded dt B D K i]).
Proof.
move=> sbuf; split=> [E|[[sD s1 uA] [szK lastK sol]]].
  have [sD s1 uA] := mid_ok_conds E.
  have [K' E' [sz' lst' rec']] := mid_run sbuf sD s1 uA.
  move: E'; rewrite E => -[->]; do !split=> //.
  by move=> i li; apply/mid_recE => //; apply: rec'.
have [K' -> [sz' lst' rec']] := mid_run sbuf sD s1 uA.
congr Ok; apply: (@forward_uniq _ 0 0 (mid_hi B) (mid_g dt B D)) => //.
- exact: mid_causal.
- by rewrite sz' szK.
- by move=> j; rewrite -leqNgt => le; rewrite lst' ?lastK.
- by move=> i li; apply/mid_recE => //; apply: sol.
Qed.

End Midpoint.

(** ** Simpson *)
Section SimpsonQuad.
Variables (R : realFieldType) (V : lmodType R).
Implicit Types (h : R) (f : nat -> V) (n k : nat).

Lemma simpson_evenE h f k :
  simpson_even h f (2 * k.+1) =
  (h / 3%:R) *: f 0%N
  + \sum_(i < k) ((4%:R * (h / 3%:R)) *: f (1 + 2 * i)%N
                  + (2 * (h / 3%:R)) *: f (2 + 2 * i)%N)
  + (4%:R * (h / 3%:R)) *: f (2 * k + 1)%N
  + (h / 3%:R) *: f (2 * k + 2)%N.
Proof.
set c := h / 3%:R.
rewrite /simpson_even -/c mul2n doubleK.
elim: k => [|k IH].
  by rewrite big_ord_recr !big_ord0 /= add0r addr0 muln0 !add0n !scalerDr scalerA mulrC.
rewrite big_ord_recr scalerDr IH /= [in RHS]big_ord_recr /=.
rewrite !scalerDr scalerA [c * 4%:R]mulrC.
have -> : (k.+1).*2 = (2 * k + 2)%N by lia.
have -> : (2 * k.+1 + 1 = (2 * k + 2).+1)%N by lia.
have -> : (2 * k.+1 + 2 = (2 * k + 2).+2)%N by lia.
have -> : (1 + 2 * k = 2 * k + 1)%N by lia.
have -> : (2 + 2 * k = 2 * k + 2)%N by lia.
rewrite !addrA; congr (_ + _ + _); rewrite -!addrA; congr (_ + (_ + (_ + _))).
by rewrite -scalerDl mulrDl mul1r.
Qed.

End SimpsonQuad.

Section SimpsonLoop.
Variables (R : realFieldType) (o d m : nat).
Implicit Types (dt : R) (B : seq 'M[R]_(o, d)) (K : seq 'M[R]_(d, m)).

Lemma stride_loop start n (body : nat -> 'M[R]_(o, m) -> res 'M[R]_(o, m)) (f : nat -> 'M[R]_(o, m)) a :
  (forall i acc, (i < (n - start) %/ 2)%N ->
     body (start + 2 * i)%N acc = Ok (acc + f i)) ->
  forM (stride2 start n) body a = Ok (a + \sum_(i < (n - start) %/ 2) f i).
Proof.
move=> H; rewrite /stride2.
suff: forall k, (k <= (n - start) %/ 2)%N ->
   forM [seq (start + 2 * i)%N | i <- iota 0 k] body a = Ok (a + \sum_(i < k) f i).
  by apply.
elim=> [|k IH] le; first by rewrite big_ord0 addr0.
rewrite -[in iota _ _]addn1 iotaD map_cat forM_cat IH ?(ltnW le) //= add0n H //=.
by rewrite big_ord_recr /= addrA.
Qed.

Lemma simpson_integralE dt n B K :
  (1 < n)%N -> (n < size B)%N -> (n <= size K)%N ->
  simpson_integral dt n B K =
  Ok (simpson_rule dt (fun j => B`_(n - j) *m K`_j) n
      - (dt / 3%:R) *: (B`_0 *m K`_n)).
Proof.
move=> n1 sB sK; set f := fun j => B`_(n - j) *m K`_j.
set h := dt / 3%:R.
have fE j : (j < n)%N -> (rd B (n - j), rd K j) = (Ok B`_(n - j), Ok K`_j).
  by move=> lj; rewrite !(rdE 0) //; slia.
have f_n : B`_0 *m K`_n = f n by rewrite /f subnn.
rewrite /simpson_integral -/h /simpson_rule f_n.
case: (boolP (odd n)) => on.
- rewrite (rdE 0) //= (rdE 0) /=; last by slia.
  rewrite (rdE 0) /=; last by slia.
  rewrite (rdE 0) /=; last by slia.
  have [k nE] : exists k, n = (2 * k.+1).+1.
    by exists (n.-1 %/ 2).-1; slia.
  rewrite (stride_loop (f := fun i => (4%:R * h) *: f (2 + 2 * i)%N + (2 * h) *: f (3 + 2 * i)%N)).
    rewrite /= (rdE 0) /=; last by slia.
    rewrite {1}nE /= (rdE 0) /=; last by slia.
    congr Ok; rewrite nE [X in simpson_even _ _ X]/= (simpson_evenE _ (fun j => f j.+1)) -/h.
    have -> : (((2 * k.+1).+1 - 2) %/ 2 = k)%N by lia.
    have -> : B`_((2 * k.+1).+1.-1) *m K`_1 = f 1%N by rewrite /f -nE; congr (_`_ _ *m _); lia.
    have -> : B`_1 *m K`_(2 * k.+1) = f (2 * k + 1).+1.
      by rewrite /f nE; congr (_`_ _ *m _`_ _); lia.
    have -> : B`_((2 * k.+1).+1) *m K`_0 = f 0%N by rewrite /f nE subn0.
    have -> : f (2 * k.+1).+1 = f (2 * k + 2).+1 by congr f; lia.
    rewrite !addrA addrK; congr (_ + _).
    rewrite [dt / 2]mulrC scalerDr scalerDl !addrA //.
  move=> i acc li.
  have ln : (3 + 2 * i < n)%N by slia.
  rewrite (rdE 0) /=; last by slia.
  rewrite (rdE 0) /=; last by slia.
  rewrite (rdE 0) /=; last by slia.
  rewrite (rdE 0) /=; last by slia.
  by rewrite -addrA -subnDA addn1.
- rewrite (rdE 0) //= (rdE 0) /=; last by slia.
  have [k nE] : exists k, n = (2 * k.+1)%N by exists (n %/ 2).-1; slia.
  rewrite (stride_loop (f := fun i => (4%:R * h) *: f (1 + 2 * i)%N + (2 * h) *: f (2 + 2 * i)%N)).
    rewrite /= (rdE 0) /=; last by slia.
    have -> : (if n is n'.+1 then rd K n' else Err OutOfBounds) = Ok K`_(2 * k).+1.
      by rewrite nE mulnS /= (rdE 0) //; slia.
    rewrite /=; congr Ok; rewrite [X in simpson_even _ _ X]nE (simpson_evenE _ f) -/h.
    have -> : ((n - 1) %/ 2 = k)%N by slia.
    have -> : B`_1 *m K`_(2 * k).+1 = f (2 * k + 1)%N.
      by rewrite /f nE; congr (_`_ _ *m _`_ _); lia.
    have -> : f n = f (2 * k + 2)%N by congr f; slia.
    by rewrite addrK /f subn0.
  move=> i acc li.
  have ln : (2 + 2 * i < n)%N by slia.
  rewrite (rdE 0) /=; last by slia.
  rewrite (rdE 0) /=; last by slia.
  rewrite (rdE 0) /=; last by slia.
  rewrite (rdE 0) /=; last by slia.
  by rewrite -addrA -subnDA addn1.
Qed.

End SimpsonLoop.

Section SimpsonCausal.
Variables (R : realFieldType) (V : lmodType R).
Implicit Types (h : R) (f g : nat -> V) (n k : nat).

Lemma simpson_rule_last h f g n : (1 < n)%N ->
  (forall j, (j < n)%N -> f j = g j) ->
  simpson_rule h f n - (h / 3%:R) *: f n = simpson_rule h g n - (h / 3%:R) *: g n.
Proof.
move=> n1 H; rewrite /simpson_rule; case: (boolP (odd n)) => on.
  have [k nE] : exists k, n = (2 * k.+1).+1 by exists (n.-1 %/ 2).-1; lia.
  rewrite nE [X in simpson_even _ _ X]/= [X in _ = _ + simpson_even _ _ X - _]/=.
  rewrite !(simpson_evenE _ (fun j => _ j.+1)).
  have -> : ((2 * k.+1).+1 = (2 * k + 2).+1)%N by lia.
  rewrite !addrA !addrK; do 3![rewrite H; last by lia].
  congr (_ + _ + _); apply: eq_bigr => i _; have := ltn_ord i => li.
  by rewrite !H //; lia.
have [k nE] : exists k, n = (2 * k.+1)%N by exists (n %/ 2).-1; lia.
rewrite nE !simpson_evenE.
have -> : (2 * k.+1 = 2 * k + 2)%N by lia.
rewrite !addrK; do 2![rewrite H; last by lia].
congr (_ + _ + _); apply: eq_bigr => i _; have := ltn_ord i => li.
by rewrite !H //; lia.
Qed.

Lemma simpson_rule1 h f : simpson_rule h f 1 = (h / 2) *: (f 0%N + f 1%N).
Proof. by rewrite /simpson_rule /= /simpson_even big_ord0 scaler0 addr0. Qed.

End SimpsonCausal.

Section SimpsonInv.
Variables (R : realFieldType) (d m : nat).
Implicit Types (dt : R) (B Bd : seq 'M[R]_d) (D Dd K : seq 'M[R]_(d, m)).

Definition simp_num dt B (i : nat) K : 'M[R]_(d, m) :=
  simpson_rule dt (fun j => B`_(i - j) *m K`_j) i - (dt / 3%:R) *: (B`_0 *m K`_i).

Lemma simp_num_causal dt B i K K' : (1 < i)%N ->
  (forall j, (j < i)%N -> K`_j = K'`_j) -> simp_num dt B i K = simp_num dt B i K'.
Proof.
move=> i1 H; rewrite /simp_num.
have := @simpson_rule_last _ _ dt (fun j => B`_(i - j) *m K`_j) (fun j => B`_(i - j) *m K'`_j) i i1.
by rewrite /= subnn; apply=> j lj; rewrite H.
Qed.

Lemma simp_slices dt B K (i : nat) :
  (1 < i)%N -> (i < size B)%N -> (i < size K)%N ->
  simpson_integral dt i (drop 0 (take i.+1 B)) (drop 0 (take i.+1 K)) = Ok (simp_num dt B i K).
Proof.
move=> i1 sB sK; rewrite simpson_integralE ?size_slice //; [|by slia|by slia].
congr Ok; rewrite /simp_num.
have := @simpson_rule_last _ _ dt
  (fun j => (drop 0 (take i.+1 B))`_(i - j) *m (drop 0 (take i.+1 K))`_j)
  (fun j => B`_(i - j) *m K`_j) i i1.
rewrite /= subnn; apply=> j lj; rewrite !nth_slice //; slia.
Qed.

Definition simp_g dt B D (i : nat) K : 'M[R]_(d, m) :=
  -1 *: (invmx (3%:R^-1 *: (dt *: B`_0)) *m (simp_num dt B i K + D`_i)).

Lemma simp_causal dt B D hi : causal 0 2 hi (simp_g dt B D).
Proof.
move=> i K K' rg H; rewrite /simp_g (@simp_num_causal _ _ _ K K') //.
by case/andP: rg.
Qed.

Lemma unit_half_third dt (A : 'M[R]_d) :
  ((2^-1 * dt) *: A \in unitmx) = (3%:R^-1 *: (dt *: A) \in unitmx).
Proof.
have u2 : (2^-1 : R) \is a GRing.unit by rewrite unitrV unitfE pnatr_eq0.
have u3 : (3%:R^-1 : R) \is a GRing.unit by rewrite unitrV unitfE pnatr_eq0.
by rewrite -scalerA (unitmxZ _ u2) (unitmxZ _ u3).
Qed.

Lemma simp_ok_conds dt k0 B D K :
  kernel_first_kind_simpson dt k0 B D = Ok K ->
  [/\ size D = size B, (1 < size B)%N & (2^-1 * dt) *: B`_0 \in unitmx].
Proof.
rewrite /kernel_first_kind_simpson => H.
unbind H u Hu; move/guard_ok/eqP: Hu => sD.
unbind H b0 Hb; case: (rd_ok 0 Hb) => s1 Eb; rewrite Eb in H.
unbind H i0 Hi; case: (finv_ok Hi) => uA _.
unbind H K0 HK; unbind H d1 Hd; unbind H b1 Hb1.
by case: (rd_ok 0 Hb1).
Qed.

Lemma simp_run dt k0 B D :
  size D = size B -> (1 < size B)%N -> (2^-1 * dt) *: B`_0 \in unitmx ->
  exists2 K, kernel_first_kind_simpson dt k0 B D = Ok K &
    [/\ size K = size B, K`_0 = k0,
        K`_1 = -1 *: (invmx ((2^-1 * dt) *: B`_0) *m ((2^-1 * dt) *: (B`_1 *m k0) + D`_1))
      & forall i, (1 < i < size B)%N -> K`_i = simp_g dt B D i K].
Proof.
move=> sD s1 uA; rewrite /kernel_first_kind_simpson sD eqxx /=.
rewrite (rdE 0) /=; last by slia.
rewrite finvE //=.
have s0 : (0 < size (nseq (size B) (0%R : 'M[R]_(d, m))))%N by rewrite size_nseq; slia.
case: (wr_total (0 : 'M[R]_(d, m)) k0 s0) => K0 E0 [sz0 H0].
rewrite E0 /= (rdE 0) /=; last by slia.
rewrite (rdE 0) /=; last by slia.
have s2 : (1 < size K0)%N by rewrite sz0 size_nseq.
set K1v := (X in wr K0 1 X).
case: (wr_total (0 : 'M[R]_(d, m)) K1v s2) => K1 E1 [sz1 H1].
rewrite E1 /= finvE /=; last by rewrite -unit_half_third.
set body := (X in for_ _ _ X).
have sK1 : size K1 = size B by rewrite sz1 sz0 size_nseq.
have [||||K -> [sz Hout Hin]] := @forward_ok _ 0 2 (size B) body (simp_g dt B D) K1.
- by slia.
- by slia.
- move=> i K' rg szK'; rewrite /body.
  rewrite sliceE /=; [|by slia|by slia].
  rewrite sliceE /=; [|by slia|by slia].
  rewrite simp_slices /=; [|by slia|by slia|by slia].
  by rewrite (rdE 0) //; slia.
- exact: simp_causal.
exists K => //; split=> //; first by rewrite sz.
  by rewrite Hout // H1 H0.
by rewrite Hout // H1 eqxx /K1v scaleN1r scaleN1r -mulmxN opprD addrC.
Qed.

Lemma simp_recE dt k0 B D K :
  (1 < size B)%N -> (2^-1 * dt) *: B`_0 \in unitmx -> K`_0 = k0 ->
  solves_simpson dt B D K <->
  (K`_1 = -1 *: (invmx ((2^-1 * dt) *: B`_0) *m ((2^-1 * dt) *: (B`_1 *m k0) + D`_1)) /\
   forall i, (1 < i < size B)%N -> K`_i = simp_g dt B D i K).
Proof.
move=> s1 uA K0.
have uA' : 3%:R^-1 *: (dt *: B`_0) \in unitmx by rewrite -unit_half_third.
have step1 : K`_1 = -1 *: (invmx ((2^-1 * dt) *: B`_0) *m ((2^-1 * dt) *: (B`_1 *m k0) + D`_1))
   <-> simpson_rule dt (fun j => B`_(1 - j) *m K`_j) 1 = - D`_1.
  rewrite solve_eq // simpson_rule1 -K0 subn0 subnn scalerDr -scalemxAl.
  by rewrite addrAC addr0_iff [dt / 2]mulrC.
have step i : (1 < i)%N -> K`_i = simp_g dt B D i K <->
    simpson_rule dt (fun j => B`_(i - j) *m K`_j) i = - D`_i.
  move=> i1; rewrite /simp_g solve_eq // /simp_num -!scalemxAl scalerA.
  by rewrite [3%:R^-1 * _]mulrC addrAC subrK addr0_iff.
split=> [H|[H1 H2]].
  split; first by apply/step1; apply: H.
  by move=> i rg; apply/step; [case/andP: rg | apply: H; lia].
case=> [|[|i]] // rg; first by apply/step1.
by apply/step => //; apply: H2.
Qed.

Lemma simp_charact dt k0 B D K :
  kernel_first_kind_simpson dt k0 B D = Ok K <->
  ([/\ size D = size B, (1 < size B)%N & (2^-1 * dt) *: B`_0 \in unitmx] /\
   [/\ size K = size B, K`_0 = k0 & solves_simpson dt B D K]).
Proof.
split=> [E|[[sD s1 uA] [szK fstK sol]]].
  have [sD s1 uA] := simp_ok_conds E.
  have [K' E' [sz' fst' one' rec']] := simp_run k0 sD s1 uA.
  by move: E'; rewrite E => -[->]; do !split=> //; apply/(@simp_recE _ k0).
have [K' -> [sz' fst' one' rec']] := simp_run k0 sD s1 uA.
have [one rc] := (simp_recE D s1 uA fstK).1 sol.
congr Ok; apply: (@forward_uniq _ 0 2 (size B) (simp_g dt B D)) => //.
- exact: simp_causal.
- by rewrite sz' szK.
- move=> [|[|j]] rg; [by rewrite fst' fstK|by rewrite one' one|].
  by rewrite !nth_default ?sz' ?szK //; slia.
Qed.

End SimpsonInv.

Section SimpsonInv2.
Variables (R : realFieldType) (d m : nat).
Implicit Types (dt : R) (Bd : seq 'M[R]_d) (Dd K : seq 'M[R]_(d, m)).

(** Second kind: what the routine as written solves. *)
Definition simp2_coded dt (B0 : 'M[R]_d) Bd Dd K (i : nat) : Prop :=
  let c := if i == 1%N then 2^-1 * dt else dt / 3%:R in
  B0 *m K`_i = simpson_rule dt (fun j => Bd`_(i - j) *m K`_j) i + Dd`_i
               - (2 * c) *: (Bd`_0 *m K`_i).

Definition simp2_g dt (B0 : 'M[R]_d) Bd Dd (i : nat) K : 'M[R]_(d, m) :=
  invmx (B0 + 3%:R^-1 *: (dt *: Bd`_0)) *m (simp_num dt Bd i K + Dd`_i).

Lemma simp2_causal dt B0 Bd Dd hi : causal 0 2 hi (simp2_g dt B0 Bd Dd).
Proof.
move=> i K K' rg H; rewrite /simp2_g (@simp_num_causal _ _ _ _ _ _ K K') //.
by case/andP: rg.
Qed.

Lemma simp2_ok_conds dt k0 B0 Bd Dd K :
  kernel_second_kind_simpson dt k0 B0 Bd Dd = Ok K ->
  [/\ size Dd = size Bd, (1 < size Bd)%N,
      B0 + (2^-1 * dt) *: Bd`_0 \in unitmx & B0 + 3%:R^-1 *: (dt *: Bd`_0) \in unitmx].
Proof.
rewrite /kernel_second_kind_simpson => H.
unbind H u Hu; move/guard_ok/eqP: Hu => sD.
unbind H b0 Hb; case: (rd_ok 0 Hb) => s1 Eb; rewrite Eb in H.
unbind H i0 Hi; case: (finv_ok Hi) => uA _.
unbind H K0 HK; unbind H d1 Hd; unbind H b1 Hb1.
case: (rd_ok 0 Hb1) => s2 _.
unbind H K1 HK1; unbind H i1 Hi1; case: (finv_ok Hi1) => uA' _.
by split.
Qed.

Lemma simp2_run dt k0 B0 Bd Dd :
  size Dd = size Bd -> (1 < size Bd)%N ->
  B0 + (2^-1 * dt) *: Bd`_0 \in unitmx -> B0 + 3%:R^-1 *: (dt *: Bd`_0) \in unitmx ->
  exists2 K, kernel_second_kind_simpson dt k0 B0 Bd Dd = Ok K &
    [/\ size K = size Bd, K`_0 = k0,
        K`_1 = invmx (B0 + (2^-1 * dt) *: Bd`_0) *m (Dd`_1 + (2^-1 * dt) *: (Bd`_1 *m k0))
      & forall i, (1 < i < size Bd)%N -> K`_i = simp2_g dt B0 Bd Dd i K].
Proof.
move=> sD s1 uA uA'; rewrite /kernel_second_kind_simpson sD eqxx /=.
rewrite (rdE 0) /=; last by slia.
rewrite finvE //=.
have s0 : (0 < size (nseq (size Bd) (0%R : 'M[R]_(d, m))))%N by rewrite size_nseq; slia.
case: (wr_total (0 : 'M[R]_(d, m)) k0 s0) => K0 E0 [sz0 H0].
rewrite E0 /= (rdE 0) /=; last by slia.
rewrite (rdE 0) /=; last by slia.
have s2 : (1 < size K0)%N by rewrite sz0 size_nseq.
set K1v := (X in wr K0 1 X).
case: (wr_total (0 : 'M[R]_(d, m)) K1v s2) => K1 E1 [sz1 H1].
rewrite E1 /= finvE //=.
set body := (X in for_ _ _ X).
have sK1 : size K1 = size Bd by rewrite sz1 sz0 size_nseq.
have [||||K -> [sz Hout Hin]] := @forward_ok _ 0 2 (size Bd) body (simp2_g dt B0 Bd Dd) K1.
- by slia.
- by slia.
- move=> i K' rg szK'; rewrite /body.
  rewrite sliceE /=; [|by slia|by slia].
  rewrite sliceE /=; [|by slia|by slia].
  rewrite simp_slices /=; [|by slia|by slia|by slia].
  by rewrite (rdE 0) //; slia.
- exact: simp2_causal.
exists K => //; split=> //; first by rewrite sz.
  by rewrite Hout // H1 H0.
by rewrite Hout // H1 eqxx.
Qed.

Lemma simp2_solves dt k0 B0 Bd Dd K :
  kernel_second_kind_simpson dt k0 B0 Bd Dd = Ok K ->
  [/\ size K = size Bd, K`_0 = k0
    & forall i, (0 < i < size Bd)%N -> simp2_coded dt B0 Bd Dd K i].
Proof.
move=> E; have [sD s1 uA uA'] := simp2_ok_conds E.
have [K' E' [sz' fst' one' rec']] := simp2_run k0 sD s1 uA uA'.
move: E'; rewrite E => -[EK]; subst K'; split=> //.
case=> [|[|i]] // rg; rewrite /simp2_coded /=.
  have := one'; rewrite solve_eq2 // mulmxDl -scalemxAl => /eqP.
  rewrite eq_sym -subr_eq eq_sym => /eqP ->.
  rewrite simpson_rule1 subn0 subnn fst' scalerDr [dt / 2]mulrC.
  rewrite mulr_natl mulr2n scalerDl opprD.
  set X := _ *: (Bd`_1 *m k0); set Y := _ *: (Bd`_0 *m K`_1).
  by abel.
have := rec' i.+2 rg; rewrite /simp2_g solve_eq2 // mulmxDl -scalemxAl -scalemxAl scalerA => /eqP.
rewrite eq_sym -subr_eq eq_sym => /eqP ->.
rewrite /simp_num mulr_natl mulr2n scalerDl opprD [3%:R^-1 * _]mulrC.
set X := simpson_rule _ _ _; set Y := _ *: _.
by abel.
Qed.

Lemma simp2_solves_stationary dt k0 B0 Bd Dd K :
  kernel_second_kind_simpson dt k0 B0 Bd Dd = Ok K -> Bd`_0 = 0 ->
  solves2_simpson dt B0 Bd Dd K.
Proof.
move=> /simp2_solves [_ _ H] z i rg.
by have := H i rg; rewrite /simp2_coded z mul0mx scaler0 subr0.
Qed.

End SimpsonInv2.
