(** * Consequences of the characterisations, in the form of the properties. *)
From mathcomp Require Import all_ssreflect all_algebra.
From mathcomp Require Import zify.
From Verif Require Import Base Tactics FKernel Flux Quadrature FKernelSpec MemorySpec.
From Verif Require Import FKernelProofs FKernelProofs2 FKernelLaws FKernelLaws2 MemoryProofs EvolveProofs.
Set Implicit Arguments.
Unset Strict Implicit.
Unset Printing Implicit Defensive.
Import GRing.Theory Num.Theory.
Local Open Scope ring_scope.

Section Main.
Variables (R : realFieldType) (d m : nat).
Implicit Types (dt : R) (B Bd : seq 'M[R]_d) (D Dd K : seq 'M[R]_(d, m)).

Lemma rect_main dt B D K :
  kernel_first_kind_rect dt B D = Ok K <->
  ([/\ size D = size B, (1 < size B)%N & dt *: B`_1 \in unitmx] /\
   [/\ size K = size B, K`_(size B).-1 = 0 & solves_rect dt B D K]).
Proof.
rewrite /kernel_first_kind_rect rect_charact ?size_nseq // nth_nseq if_same.
by [].
Qed.

Lemma rect_unique dt B D K K' :
  kernel_first_kind_rect dt B D = Ok K -> size K' = size B -> solves_rect dt B D K' ->
  forall i, (i < (size B).-1)%N -> K'`_i = K`_i.
Proof.
move=> E sK' sol i li; have [[sD s1 uA] _] := (rect_main dt B D K).1 E.
have [K1 E1 H] := rect_recovers sD s1 uA sK' sol.
by move: E1; rewrite E => -[->]; rewrite H.
Qed.

Lemma trapz_main dt k0 B D K :
  kernel_first_kind_trapz dt k0 B D = Ok K <->
  ([/\ size D = size B, (0 < size B)%N & (2^-1 * dt) *: B`_0 \in unitmx] /\
   [/\ size K = size B, K`_0 = k0 & solves_trapz dt B D K]).
Proof. by apply: trapz_charact; rewrite size_nseq. Qed.

Lemma rect2_main dt k0 (B0 : 'M[R]_d) Bd Dd K :
  kernel_second_kind_rect dt k0 B0 Bd Dd = Ok K <->
  ([/\ size Dd = size Bd, (0 < size Bd)%N & B0 \in unitmx] /\
   [/\ size K = size Bd, K`_0 = k0 & solves2_rect dt B0 Bd Dd K]).
Proof. by apply: rect2_charact; rewrite size_nseq. Qed.

Lemma trapz2_main dt k0 (B0 : 'M[R]_d) Bd Dd K :
  kernel_second_kind_trapz dt k0 B0 Bd Dd = Ok K <->
  ([/\ size Dd = size Bd, (0 < size Bd)%N & B0 - (2^-1 * dt) *: Bd`_0 \in unitmx] /\
   [/\ size K = size Bd, K`_0 = k0 & solves2_trapz dt B0 Bd Dd K]).
Proof. by apply: trapz2_charact; rewrite size_nseq. Qed.

(** The midpoint routine: the equation it does solve. *)
Lemma mid_main dt B D K :
  kernel_first_kind_midpoint dt B D = Ok K <->
  ([/\ size D = size B, (1 < size B)%N & (2 * dt) *: B`_1 \in unitmx] /\
   [/\ size K = midpoint_len (size B),
       forall j, (maxn 1 ((size B).-1 %/ 2) <= j)%N -> K`_j = 0
     & forall i, (i < maxn 1 ((size B).-1 %/ 2))%N ->
         (2 * dt) *: (\sum_(j < i) B`_(2 * (i - j)) *m K`_j + B`_1 *m K`_i)
         = - D`_(2 * i + 1)]).
Proof.
rewrite /kernel_first_kind_midpoint mid_charact ?size_nseq // /mid_hi /midpoint_coded.
split=> [[H [H1 H2 H3]]|[H [H1 H2 H3]]]; split=> //; split=> // j lj; rewrite H2 ?nth_nseq ?if_same //.
Qed.

(** The first midpoint sample is right whatever the lag convention. *)
Lemma mid_first dt B D K :
  kernel_first_kind_midpoint dt B D = Ok K ->
  midpoint_rule (2 * dt) (fun j => B`_(2 * (0 - j) + 1) *m K`_j) 1 = - D`_1.
Proof.
case/mid_main=> _ [_ _ /(_ 0%N)]; rewrite big_ord0 add0r => H.
by rewrite /midpoint_rule big_ord1 /= H //; lia.
Qed.

(** When the correlation does not change between lag [2k] and [2k+1], the coded
    equation is the midpoint rule. *)
Lemma mid_solves_locally_constant dt B D K :
  kernel_first_kind_midpoint dt B D = Ok K ->
  (forall k, (0 < k)%N -> B`_(2 * k) = B`_(2 * k + 1)) ->
  forall i, (i < maxn 1 ((size B).-1 %/ 2))%N ->
    midpoint_rule (2 * dt) (fun j => B`_(2 * (i - j) + 1) *m K`_j) i.+1 = - D`_(2 * i + 1).
Proof.
case/mid_main=> _ [_ _ H] eB i li; rewrite -H // /midpoint_rule big_ord_recr /= subnn.
congr (_ *: (_ + _)); apply: eq_bigr => j _; rewrite -eB //.
by have := ltn_ord j; lia.
Qed.

Lemma rect_last_zero dt B D K :
  kernel_first_kind_rect dt B D = Ok K ->
  size K = size B /\ K`_(size B).-1 = 0.
Proof. by case/rect_main=> _ []. Qed.

Lemma zero_force_rect dt B K :
  kernel_first_kind_rect dt B (nseq (size B) (0 : 'M[R]_(d, m))) = Ok K ->
  K = nseq (size B) 0.
Proof.
move=> E; have := rect_linear 0 0 E E.
rewrite (_ : lincomb 0 0 _ _ = nseq (size B) 0); last first.
  apply: (@eq_from_nth _ 0); first by rewrite size_lincomb.
  by move=> i li; rewrite nth_lincomb // !scale0r addr0 nth_nseq if_same.
rewrite E => -[EK]; have [_ [sK _ _]] := (rect_main _ _ _ _).1 E.
apply: (@eq_from_nth _ 0); first by rewrite size_nseq.
by move=> i li; rewrite EK nth_lincomb // !scale0r addr0 nth_nseq if_same.
Qed.

Lemma zero_force_trapz dt B K :
  kernel_first_kind_trapz dt 0 B (nseq (size B) (0 : 'M[R]_(d, m))) = Ok K ->
  K = nseq (size B) 0.
Proof.
move=> E; have := trapz_linear 0 0 E E.
rewrite (_ : lincomb 0 0 _ _ = nseq (size B) 0); last first.
  apply: (@eq_from_nth _ 0); first by rewrite size_lincomb.
  by move=> i li; rewrite nth_lincomb // !scale0r addr0 nth_nseq if_same.
rewrite !scaler0 addr0 E => -[EK]; have [_ [sK _ _]] := (trapz_main _ _ _ _ _).1 E.
apply: (@eq_from_nth _ 0); first by rewrite size_nseq.
by move=> i li; rewrite EK nth_lincomb // !scale0r addr0 nth_nseq if_same.
Qed.

(** Memory, trapezoid. *)
Lemma memory_trapz_main dt K (E : seq 'rV[R]_d) :
  (0 < size K)%N -> (0 < size E)%N ->
  exists2 mem, memory_trapz dt K E = Ok mem &
    [/\ size mem = size E, mem`_0 = 0
      & forall i, (0 < i < size E)%N ->
          mem`_i = - (trapz_rule dt (mem_integrand E K i) (minn i (size K).-1)
                      + (if ((size K).-1 < i)%N then dt *: mem_integrand E K i (size K).-1 else 0))].
Proof.
move=> sK sE; have [mem Em [sz h0 H]] := memory_trapzE dt sK sE.
exists mem => //; split=> // i ri; rewrite H //; case: ltnP => lt.
  by rewrite memory_trapz_coded_out // (minn_idPr (ltnW lt)).
by rewrite memory_trapz_coded_in ?addr0 ?(minn_idPl lt) //; lia.
Qed.

End Main.

Section MainEvolve.
Variables (R : realFieldType) (d o : nat).
Implicit Types (dt : R) (G : seq 'M[R]_(o, d)) (K : seq 'M[R]_d) (F : 'M[R]_d).

Lemma evolve_trapz_main dt len K (E0 : 'M[R]_(o, d)) F G :
  (1 < size K)%N ->
  solve_ide_trapz dt len K E0 F = Ok G <->
  ([/\ (0 < len)%N & 1%:M + (2^-1 * dt ^+ 2) *: K`_0 \in unitmx] /\
   [/\ size G = len, G`_0 = E0
     & forall i, (0 < i < len)%N ->
         let n := minn i (size K).-1 in
         G`_i - G`_i.-1
         = dt *: (G`_i.-1 *m F - (trapz_rule dt (mem_integrand G K i) n
                                  - (2^-1 * dt) *: mem_integrand G K i n))]).
Proof.
move=> s1; rewrite ide_trapz_charact.
have st i : (0 < i < len)%N -> ide_coded 2^-1 (minn i (size K).-1) dt K F G i <->
  G`_i - G`_i.-1
         = dt *: (G`_i.-1 *m F - (trapz_rule dt (mem_integrand G K i) (minn i (size K).-1)
                                  - (2^-1 * dt) *: mem_integrand G K i (minn i (size K).-1))).
  by move=> ri; apply: ide_coded_trapz; slia.
split=> [[[l0 s0 uA] [sz h0 H]]|[[l0 uA] [sz h0 H]]].
  by split; split=> // i ri /=; apply/st => //; apply: H.
by split; split=> //; [slia | move=> i ri; apply/st => //; apply: H].
Qed.

Lemma evolve_rect_main dt len K (E0 : 'M[R]_(o, d)) F G :
  solve_ide_rect dt len K E0 F = Ok G <->
  ([/\ (0 < len)%N, (0 < size K)%N & 1%:M + (dt ^+ 2) *: K`_0 \in unitmx] /\
   [/\ size G = len, G`_0 = E0
     & forall i, (0 < i < len)%N ->
         G`_i - G`_i.-1
         = dt *: (G`_i.-1 *m F
                  - rect_rule dt (mem_integrand G K i) (maxn (minn i (size K).-1).-1 1))]).
Proof.
rewrite ide_rect_charact.
split=> [[C [sz h0 H]]|[C [sz h0 H]]]; split=> //; split=> // i ri.
  exact: ((ide_coded_rect dt K F G i (minn i (size K).-1).-1).1 (H i ri)).
exact: ((ide_coded_rect dt K F G i (minn i (size K).-1).-1).2 (H i ri)).
Qed.

End MainEvolve.
