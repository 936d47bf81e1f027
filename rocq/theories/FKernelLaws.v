(** * Consequences of existence and uniqueness: buffer independence, causality,
      basis change, linearity, recovery. *)
From mathcomp Require Import all_ssreflect all_algebra.
From mathcomp Require Import zify.
From Verif Require Import Base Tactics FKernel Quadrature FKernelSpec FKernelProofs FKernelProofs2.
Set Implicit Arguments.
Unset Strict Implicit.
Unset Printing Implicit Defensive.
Import GRing.Theory Num.Theory.
Local Open Scope ring_scope.

(** ** Linearity of the quadrature rules *)
Section RuleLinear.
Variables (R : realFieldType) (V W : lmodType R).
Implicit Types (h : R) (f g : nat -> V) (n : nat).

Lemma rect_rule_eq h f g n : (forall j, (j < n)%N -> f j = g j) ->
  rect_rule h f n = rect_rule h g n.
Proof. by move=> H; rewrite /rect_rule; congr (_ *: _); apply: eq_bigr => j _; apply: H. Qed.

Lemma trapz_rule_eq h f g n : (forall j, (j <= n)%N -> f j = g j) ->
  trapz_rule h f n = trapz_rule h g n.
Proof.
move=> H; rewrite /trapz_rule; congr (_ *: _); apply: eq_bigr => j _.
by have := ltn_ord j => lj; rewrite !H //; lia.
Qed.

Lemma rect_rule_lin h (l : {linear V -> W}) f n :
  rect_rule h (fun j => l (f j)) n = l (rect_rule h f n).
Proof. by rewrite /rect_rule linearZ /= [l _]linear_sum. Qed.

Lemma trapz_rule_lin h (l : {linear V -> W}) f n :
  trapz_rule h (fun j => l (f j)) n = l (trapz_rule h f n).
Proof.
rewrite /trapz_rule linearZ /= [l _]linear_sum; congr (_ *: _).
by apply: eq_bigr => j _; rewrite [in RHS]linearZ /= [in RHS]linearD.
Qed.

Lemma rect_rule_comb h a b f g n :
  rect_rule h (fun j => a *: f j + b *: g j) n
  = a *: rect_rule h f n + b *: rect_rule h g n.
Proof.
rewrite /rect_rule big_split /= -!scaler_sumr scalerDr !scalerA.
by rewrite [a * h]mulrC [b * h]mulrC.
Qed.

Lemma trapz_rule_comb h a b f g n :
  trapz_rule h (fun j => a *: f j + b *: g j) n
  = a *: trapz_rule h f n + b *: trapz_rule h g n.
Proof.
rewrite /trapz_rule [a *: _]scalerA [b *: _]scalerA [a * h]mulrC [b * h]mulrC -!scalerA -scalerDr.
congr (_ *: _); rewrite !scaler_sumr -big_split /=.
apply: eq_bigr => j _; rewrite [a *: (_ *: _)]scalerA [b *: (_ *: _)]scalerA [a * _]mulrC [b * _]mulrC.
rewrite -!scalerA -scalerDr; congr (_ *: _); rewrite !scalerDr; abel.
Qed.

End RuleLinear.

Section Laws.
Variables (R : realFieldType) (d m : nat).
Implicit Types (dt : R) (B Bd : seq 'M[R]_d) (D Dd K buf : seq 'M[R]_(d, m)).

(** ** Buffer independence *)
Lemma trapz_buf_indep buf buf' dt k0 B D :
  size buf = size B -> size buf' = size B ->
  kernel_first_kind_trapz_buf buf dt k0 B D = kernel_first_kind_trapz_buf buf' dt k0 B D.
Proof.
move=> s s'.
case E: (kernel_first_kind_trapz_buf buf _ _ _ _) => [K|e].
  by symmetry; apply/(trapz_charact _ _ _ _ s'); apply/(trapz_charact _ _ _ _ s).
case E': (kernel_first_kind_trapz_buf buf' _ _ _ _) => [K|e'].
  by move/(trapz_charact _ _ _ _ s'): E' => /(trapz_charact _ _ _ _ s); rewrite E.
rewrite -E -E' /kernel_first_kind_trapz_buf.
case sD: (size D == size B) => //=.
case Eb: (rd B 0) => [b|?] //=.
case Ei: (finv _) => [iv|?] //=.
have [s0 bE] := rd_ok 0 Eb; have [uA _] := finv_ok Ei; rewrite bE in uA.
by have [K EK _] := trapz_run k0 s (eqP sD) s0 uA; rewrite EK in E.
Qed.

Lemma rect2_buf_indep buf buf' dt k0 (B0 : 'M[R]_d) Bd Dd :
  size buf = size Bd -> size buf' = size Bd ->
  kernel_second_kind_rect_buf buf dt k0 B0 Bd Dd = kernel_second_kind_rect_buf buf' dt k0 B0 Bd Dd.
Proof.
move=> s s'.
case E: (kernel_second_kind_rect_buf buf _ _ _ _ _) => [K|e].
  by symmetry; apply/(rect2_charact _ _ _ _ _ s'); apply/(rect2_charact _ _ _ _ _ s).
case E': (kernel_second_kind_rect_buf buf' _ _ _ _ _) => [K|e'].
  by move/(rect2_charact _ _ _ _ _ s'): E' => /(rect2_charact _ _ _ _ _ s); rewrite E.
rewrite -E -E' /kernel_second_kind_rect_buf.
case sD: (size Dd == size Bd) => //=.
case Ei: (finv _) => [iv|?] //=.
have [uA _] := finv_ok Ei.
case: (posnP (size Bd)) => [z|s0].
  by rewrite !wr_oob //; slia.
by have [K EK _] := rect2_run dt k0 s (eqP sD) s0 uA; rewrite EK in E.
Qed.

Lemma trapz2_buf_indep buf buf' dt k0 (B0 : 'M[R]_d) Bd Dd :
  size buf = size Bd -> size buf' = size Bd ->
  kernel_second_kind_trapz_buf buf dt k0 B0 Bd Dd = kernel_second_kind_trapz_buf buf' dt k0 B0 Bd Dd.
Proof.
move=> s s'.
case E: (kernel_second_kind_trapz_buf buf _ _ _ _ _) => [K|e].
  by symmetry; apply/(trapz2_charact _ _ _ _ _ s'); apply/(trapz2_charact _ _ _ _ _ s).
case E': (kernel_second_kind_trapz_buf buf' _ _ _ _ _) => [K|e'].
  by move/(trapz2_charact _ _ _ _ _ s'): E' => /(trapz2_charact _ _ _ _ _ s); rewrite E.
rewrite -E -E' /kernel_second_kind_trapz_buf.
case sD: (size Dd == size Bd) => //=.
case Eb: (rd Bd 0) => [b|?] //=.
case Ei: (finv _) => [iv|?] //=.
have [s0 bE] := rd_ok 0 Eb; have [uA _] := finv_ok Ei; rewrite bE in uA.
by have [K EK _] := trapz2_run k0 s (eqP sD) s0 uA; rewrite EK in E.
Qed.

(** Rectangles: the last sample is whatever the buffer held. *)
Lemma rect_buf_last buf dt B D K :
  size buf = size B -> kernel_first_kind_rect_buf buf dt B D = Ok K ->
  K`_(size B).-1 = buf`_(size B).-1.
Proof. by move=> s /(rect_charact _ _ _ s) [_ []]. Qed.

Lemma rect_buf_prefix buf buf' dt B D K K' i :
  size buf = size B -> size buf' = size B ->
  kernel_first_kind_rect_buf buf dt B D = Ok K ->
  kernel_first_kind_rect_buf buf' dt B D = Ok K' ->
  (i < (size B).-1)%N -> K`_i = K'`_i.
Proof.
move=> s s' /(rect_charact _ _ _ s) [[_ _ uA] [_ _ H]].
move=> /(rect_charact _ _ _ s') [_ [_ _ H']] li.
have {}H := (rect_recE D K uA).1 H; have {}H' := (rect_recE D K' uA).1 H'.
elim/ltn_ind: i li => i IH li; rewrite H // H' //.
by apply: (@rect_causal _ _ _ _ _ _ 0 (size B).-1) => // j lj; apply: IH => //; lia.
Qed.

Lemma mid_buf_indep buf buf' dt B D :
  size buf = midpoint_len (size B) -> size buf' = midpoint_len (size B) ->
  odd (size B) || (size B == 2%N) ->
  forall K, kernel_first_kind_midpoint_buf buf dt B D = Ok K ->
            kernel_first_kind_midpoint_buf buf' dt B D = Ok K.
Proof.
move=> s s' par K E; have [sD s1 _] := mid_ok_conds E.
move/(mid_charact _ _ _ s): E => [C [sz _ H]].
apply/(mid_charact _ _ _ s'); split=> //; split=> // j lj.
rewrite !nth_default ?s' //; last by rewrite sz; move: lj; rewrite /mid_hi /midpoint_len; lia.
by move: lj; rewrite /mid_hi /midpoint_len; lia.
Qed.

Lemma mid_buf_last buf dt B D K :
  size buf = midpoint_len (size B) -> ~~ odd (size B) -> (2 < size B)%N ->
  kernel_first_kind_midpoint_buf buf dt B D = Ok K ->
  K`_((size B).-1 %/ 2) = buf`_((size B).-1 %/ 2) /\ ((size B).-1 %/ 2 < size K)%N.
Proof.
move=> s par s2 /(mid_charact _ _ _ s) [_ [sz H _]]; split.
  by apply: H; rewrite /mid_hi; lia.
by rewrite sz /midpoint_len; lia.
Qed.

(** ** Causality *)
Lemma rect_prefix dt B B' D D' K K' n :
  kernel_first_kind_rect dt B D = Ok K -> kernel_first_kind_rect dt B' D' = Ok K' ->
  (n < size B)%N -> (n < size B')%N ->
  (forall j, (j <= n)%N -> B`_j = B'`_j /\ D`_j = D'`_j) ->
  forall j, (j < n)%N -> K`_j = K'`_j.
Proof.
have sb (C : seq 'M[R]_d) : size (nseq (size C) (0 : 'M[R]_(d, m))) = size C by rewrite size_nseq.
move=> /(rect_charact _ _ _ (sb _)) [[_ _ uA] [_ _ H]].
move=> /(rect_charact _ _ _ (sb _)) [[_ _ uA'] [_ _ H']] sB sB' Heq.
have {}H := (rect_recE D K uA).1 H; have {}H' := (rect_recE D' K' uA').1 H'.
elim/ltn_ind=> i IH li; rewrite H ?H'; [|by slia|by slia].
rewrite /rect_g (Heq 1%N _).1 ?(Heq i.+1 _).2 //; last by lia.
rewrite (eq_bigr (fun j : 'I_i => B'`_(i.+1 - j) *m K'`_j)) // => j _.
by have := ltn_ord j => lj; rewrite IH ?(Heq _ _).1 //; lia.
Qed.

Lemma mid_prefix dt B B' D D' K K' n :
  kernel_first_kind_midpoint dt B D = Ok K -> kernel_first_kind_midpoint dt B' D' = Ok K' ->
  (n < size B)%N -> (n < size B')%N ->
  (forall j, (j <= n)%N -> B`_j = B'`_j /\ D`_j = D'`_j) ->
  forall j, (2 * j + 1 < n)%N || (j == 0)%N && (0 < n)%N -> K`_j = K'`_j.
Proof.
have sb (C : seq 'M[R]_d) : size (nseq (midpoint_len (size C)) (0 : 'M[R]_(d, m))) = midpoint_len (size C)
  by rewrite size_nseq.
move=> /(mid_charact _ _ _ (sb _)) [[_ _ uA] [_ _ H]].
move=> /(mid_charact _ _ _ (sb _)) [[_ _ uA'] [_ _ H']] sB sB' Heq.
elim/ltn_ind=> i IH li.
have hi C : (n < size (C : seq 'M[R]_d))%N -> (i < mid_hi C)%N by rewrite /mid_hi; lia.
have := H i (hi B sB); rewrite mid_recE // => ->.
have := H' i (hi B' sB'); rewrite mid_recE // => ->.
rewrite /mid_g (Heq 1%N _).1 ?(Heq (2 * i).+1 _).2 //; [|by lia|by lia].
rewrite (eq_bigr (fun j : 'I_i => B'`_(2 * (i - j)) *m K'`_j)) // => j _.
by have := ltn_ord j => lj; rewrite IH ?(Heq _ _).1 //; lia.
Qed.

Lemma trapz_prefix dt k0 B B' D D' K K' n :
  kernel_first_kind_trapz dt k0 B D = Ok K -> kernel_first_kind_trapz dt k0 B' D' = Ok K' ->
  (n < size B)%N -> (n < size B')%N ->
  (forall j, (j <= n)%N -> B`_j = B'`_j /\ D`_j = D'`_j) ->
  forall j, (j <= n)%N -> K`_j = K'`_j.
Proof.
have sb (C : seq 'M[R]_d) : size (nseq (size C) (0 : 'M[R]_(d, m))) = size C by rewrite size_nseq.
move=> /(trapz_charact _ _ _ _ (sb _)) [[_ _ uA] [_ f0 H]].
move=> /(trapz_charact _ _ _ _ (sb _)) [[_ _ uA'] [_ f0' H']] sB sB' Heq.
have {}H := (trapz_recE D K uA).1 H; have {}H' := (trapz_recE D' K' uA').1 H'.
elim/ltn_ind=> -[|i] IH li; first by rewrite f0 f0'.
rewrite H ?H'; [|by slia|by slia].
rewrite /trapz_g (Heq 0%N _).1 ?(Heq i.+1 _).2 //.
rewrite /trapz_num (Heq i.+1 _).1 // IH //.
rewrite (eq_big_nat _ _ (F2 := fun j => B'`_(i.+1 - j) *m K'`_j)) // => j lj.
by rewrite IH ?(Heq _ _).1 //; lia.
Qed.

Lemma rect2_prefix dt k0 (B0 : 'M[R]_d) Bd Bd' Dd Dd' K K' n :
  kernel_second_kind_rect dt k0 B0 Bd Dd = Ok K ->
  kernel_second_kind_rect dt k0 B0 Bd' Dd' = Ok K' ->
  (n < size Bd)%N -> (n < size Bd')%N ->
  (forall j, (j <= n)%N -> Bd`_j = Bd'`_j /\ Dd`_j = Dd'`_j) ->
  forall j, (j <= n)%N -> K`_j = K'`_j.
Proof.
have sb (C : seq 'M[R]_d) : size (nseq (size C) (0 : 'M[R]_(d, m))) = size C by rewrite size_nseq.
move=> /(rect2_charact _ _ _ _ _ (sb _)) [[_ _ uA] [_ f0 H]].
move=> /(rect2_charact _ _ _ _ _ (sb _)) [[_ _ uA'] [_ f0' H']] sB sB' Heq.
have {}H := (rect2_recE dt Bd Dd K uA).1 H; have {}H' := (rect2_recE dt Bd' Dd' K' uA').1 H'.
elim/ltn_ind=> -[|i] IH li; first by rewrite f0 f0'.
rewrite H ?H'; [|by slia|by slia].
rewrite /rect2_g ?(Heq i.+1 _).2 //.
rewrite (eq_bigr (fun j : 'I_i.+1 => Bd'`_(i.+1 - j) *m K'`_j)) // => j _.
by have := ltn_ord j => lj; rewrite IH ?(Heq _ _).1 //; lia.
Qed.

Lemma trapz2_prefix dt k0 (B0 : 'M[R]_d) Bd Bd' Dd Dd' K K' n :
  kernel_second_kind_trapz dt k0 B0 Bd Dd = Ok K ->
  kernel_second_kind_trapz dt k0 B0 Bd' Dd' = Ok K' ->
  (n < size Bd)%N -> (n < size Bd')%N ->
  (forall j, (j <= n)%N -> Bd`_j = Bd'`_j /\ Dd`_j = Dd'`_j) ->
  forall j, (j <= n)%N -> K`_j = K'`_j.
Proof.
have sb (C : seq 'M[R]_d) : size (nseq (size C) (0 : 'M[R]_(d, m))) = size C by rewrite size_nseq.
move=> /(trapz2_charact _ _ _ _ _ (sb _)) [[_ _ uA] [_ f0 H]].
move=> /(trapz2_charact _ _ _ _ _ (sb _)) [[_ _ uA'] [_ f0' H']] sB sB' Heq.
have {}H := (trapz2_recE Dd K uA).1 H; have {}H' := (trapz2_recE Dd' K' uA').1 H'.
elim/ltn_ind=> -[|i] IH li; first by rewrite f0 f0'.
rewrite H ?H'; [|by slia|by slia].
rewrite /trapz2_g ?(Heq i.+1 _).2 // (Heq 0%N _).1 //.
rewrite /trapz_num (Heq i.+1 _).1 // IH //.
rewrite (eq_big_nat _ _ (F2 := fun j => Bd'`_(i.+1 - j) *m K'`_j)) // => j lj.
by rewrite IH ?(Heq _ _).1 //; lia.
Qed.

(** ** Recovery *)
Lemma rect_recovers dt B D Ks :
  size D = size B -> (1 < size B)%N -> dt *: B`_1 \in unitmx ->
  size Ks = size B -> solves_rect dt B D Ks ->
  exists2 K, kernel_first_kind_rect dt B D = Ok K &
    forall i, (i < (size B).-1)%N -> K`_i = Ks`_i.
Proof.
move=> sD s1 uA sK H.
have sb : size (nseq (size B) (0 : 'M[R]_(d, m))) = size B by rewrite size_nseq.
have [K E _] := rect_run sb sD s1 uA; exists K => // i li.
have E' : kernel_first_kind_rect_buf Ks dt B D = Ok Ks.
  by apply/(rect_charact _ _ _ sK); do !split.
exact: rect_buf_prefix E E' li.
Qed.

Lemma trapz_recovers dt B D Ks :
  size D = size B -> (0 < size B)%N -> (2^-1 * dt) *: B`_0 \in unitmx ->
  size Ks = size B -> solves_trapz dt B D Ks ->
  kernel_first_kind_trapz dt Ks`_0 B D = Ok Ks.
Proof.
move=> sD s1 uA sK H; apply/trapz_charact; first by rewrite size_nseq.
by do !split.
Qed.

Lemma rect2_recovers dt (B0 : 'M[R]_d) Bd Dd Ks :
  size Dd = size Bd -> (0 < size Bd)%N -> B0 \in unitmx ->
  size Ks = size Bd -> solves2_rect dt B0 Bd Dd Ks ->
  kernel_second_kind_rect dt Ks`_0 B0 Bd Dd = Ok Ks.
Proof.
move=> sD s1 uA sK H; apply/rect2_charact; first by rewrite size_nseq.
by do !split.
Qed.

Lemma trapz2_recovers dt (B0 : 'M[R]_d) Bd Dd Ks :
  size Dd = size Bd -> (0 < size Bd)%N -> B0 - (2^-1 * dt) *: Bd`_0 \in unitmx ->
  size Ks = size Bd -> solves2_trapz dt B0 Bd Dd Ks ->
  kernel_second_kind_trapz dt Ks`_0 B0 Bd Dd = Ok Ks.
Proof.
move=> sD s1 uA sK H; apply/trapz2_charact; first by rewrite size_nseq.
by do !split.
Qed.

End Laws.
