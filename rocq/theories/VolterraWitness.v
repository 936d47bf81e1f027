(** * Concrete inputs: counter-examples and non-vacuity examples for the Volterra
    inversion, memory and evolution routines. *)
From mathcomp Require Import all_ssreflect all_algebra.
From mathcomp Require Import zify.
From Verif Require Import Base FKernel Flux Quadrature FKernelSpec MemorySpec Mx11.
From Verif Require Import FKernelProofs FKernelProofs2 FKernelLaws FKernelLaws2 MemoryProofs EvolveProofs.
Set Implicit Arguments.
Unset Strict Implicit.
Unset Printing Implicit Defensive.
Import GRing.Theory Num.Theory.
Local Open Scope ring_scope.

Ltac lags := do !case=> //.
Ltac rules := rewrite ?/rect_rule ?/trapz_rule ?/midpoint_rule ?/simpson_rule ?/simpson_even /=
   ?/mem_integrand ?big_ord_recl ?big_ord0 /= ?mx11.
Ltac num := apply/eqP; vm_compute; reflexivity.

(** ** Examples *)
Lemma ex_rect :
  kernel_first_kind_rect 1 [:: c1 1; c1 2%:R; c1 3%:R] [:: c1 5%:R; c1 (- 2%:R); c1 (- 7%:R)]
  = Ok [:: c1 1; c1 2%:R; c1 0].
Proof.
apply/rect_charact; first by [].
split; split=> //; first by rewrite unit11 /= !mx11.
  by apply: mx11_eq; rewrite /= !mx11.
by lags; move=> _; apply: mx11_eq; rules; num.
Qed.

Lemma ex_trapz :
  kernel_first_kind_trapz 2%:R (c1 3%:R) [:: c1 1; c1 2%:R] [:: c1 0; c1 (- 10%:R)]
  = Ok [:: c1 3%:R; c1 4%:R].
Proof.
apply/trapz_charact; first by [].
split; split=> //; first by rewrite unit11 /= !mx11.
by lags; move=> _; apply: mx11_eq; rules; num.
Qed.

Lemma ex_rect2 :
  kernel_second_kind_rect 1 (c1 3%:R) (c1 2%:R) [:: c1 0; c1 2%:R] [:: c1 0; c1 4%:R]
  = Ok [:: c1 3%:R; c1 5%:R].
Proof.
apply/rect2_charact; first by [].
split; split=> //; first by rewrite unit11 /= !mx11.
by lags; move=> _; apply: mx11_eq; rules; num.
Qed.

Lemma ex_trapz2 :
  kernel_second_kind_trapz 2%:R (c1 3%:R) (c1 2%:R) [:: c1 1; c1 2%:R] [:: c1 0; c1 4%:R]
  = Ok [:: c1 3%:R; c1 10%:R].
Proof.
apply/trapz2_charact; first by [].
split; split=> //; first by rewrite unit11 /= !mx11.
by lags; move=> _; apply: mx11_eq; rules; num.
Qed.

Lemma ex_simpson :
  kernel_first_kind_simpson 2%:R (c1 3%:R) [:: c1 1; c1 2%:R] [:: c1 0; c1 (- 10%:R)]
  = Ok [:: c1 3%:R; c1 4%:R].
Proof.
apply/simp_charact.
split; split=> //; first by rewrite unit11 /= !mx11.
by lags; move=> _; apply: mx11_eq; rules; num.
Qed.

(** ** Counter-examples *)
Definition mid_B := [:: c1 0; c1 1; c1 0; c1 1; c1 0].
Definition mid_D := [:: c1 0; c1 (-1); c1 0; c1 0; c1 0].
Lemma ex_midpoint :
  kernel_first_kind_midpoint 2^-1 mid_B mid_D = Ok [:: c1 1; c1 0].
Proof.
apply/mid_charact; first by [].
split; split=> //.
- by rewrite unit11 /= !mx11.
- by rewrite /mid_hi /=; move=> [|[|j]] // _; rewrite nth_nil.
by rewrite /mid_hi /=; lags; move=> _; rewrite /midpoint_coded; apply: mx11_eq; rules; num.
Qed.

Lemma midpoint_refuted :
  exists (dt : rat) (B : seq 'M[rat]_1) (D K : seq 'M[rat]_1),
    kernel_first_kind_midpoint dt B D = Ok K /\ ~ solves_midpoint dt B D K.
Proof.
exists 2^-1, mid_B, mid_D, [:: c1 1; c1 0]; split; first exact: ex_midpoint.
move=> /(_ 1%N isT); rewrite mx11_eqE; rules => /eqP; by vm_compute.
Qed.

(** Two initial contents of the output array giving different kernels. *)
Lemma rect_buffer_refuted :
  exists (dt : rat) (B : seq 'M[rat]_1) (D buf buf' K K' : seq 'M[rat]_1),
    [/\ size buf = size B, size buf' = size B,
        kernel_first_kind_rect_buf buf dt B D = Ok K,
        kernel_first_kind_rect_buf buf' dt B D = Ok K' & K <> K'].
Proof.
exists 1, [:: c1 1; c1 1], [:: c1 0; c1 (-1)], [:: c1 0; c1 0], [:: c1 0; c1 7%:R],
  [:: c1 1; c1 0], [:: c1 1; c1 7%:R].
have sol K : K`_0 = c1 1 -> solves_rect 1 [:: c1 1; c1 1] [:: c1 0; c1 (-1)] K.
  by move=> K0; lags; move=> _; apply: mx11_eq; rules; rewrite K0 !mx11.
split=> //.
- apply/rect_charact; first by [].
  by split; split=> //; [rewrite unit11 /= !mx11 | apply: sol].
- apply/rect_charact; first by [].
  by split; split=> //; [rewrite unit11 /= !mx11 | apply: sol].
by case=> /mx11_eqE; rewrite !mx11 => /eqP.
Qed.

Lemma midpoint_buffer_refuted :
  exists (dt : rat) (B : seq 'M[rat]_1) (D buf buf' K K' : seq 'M[rat]_1),
    [/\ size buf = midpoint_len (size B), size buf' = midpoint_len (size B),
        kernel_first_kind_midpoint_buf buf dt B D = Ok K,
        kernel_first_kind_midpoint_buf buf' dt B D = Ok K' & K <> K'].
Proof.
exists 2^-1, [:: c1 0; c1 1; c1 0; c1 0], [:: c1 0; c1 (-1); c1 0; c1 0],
  [:: c1 0; c1 0], [:: c1 0; c1 7%:R], [:: c1 1; c1 0], [:: c1 1; c1 7%:R].
split=> //.
- apply/mid_charact; first by [].
  split; split=> //; first by rewrite unit11 /= !mx11.
    by rewrite /mid_hi /=; move=> [|[|j]].
  by rewrite /mid_hi /=; lags; move=> _; rewrite /midpoint_coded; apply: mx11_eq; rules; num.
- apply/mid_charact; first by [].
  split; split=> //; first by rewrite unit11 /= !mx11.
    by rewrite /mid_hi /=; move=> [|[|j]].
  by rewrite /mid_hi /=; lags; move=> _; rewrite /midpoint_coded; apply: mx11_eq; rules; num.
by case=> /mx11_eqE; rewrite !mx11 => /eqP.
Qed.

Lemma simpson2_refuted :
  exists (dt : rat) (k0 B0 : 'M[rat]_1) (Bd Dd K : seq 'M[rat]_1),
    kernel_second_kind_simpson dt k0 B0 Bd Dd = Ok K /\ ~ solves2_simpson dt B0 Bd Dd K.
Proof.
have [||K E [sK K0 K1 _]] := @simp2_run _ 1 1 (1 : rat) (c1 0) (c1 1) [:: c1 1; c1 0] [:: c1 0; c1 3%:R] erefl erefl.
- by rewrite unit11 !mx11.
- by rewrite unit11 !mx11.
exists 1, (c1 0), (c1 1), [:: c1 1; c1 0], [:: c1 0; c1 3%:R], K; split=> //.
move=> /(_ 1%N isT); rewrite mx11_eqE; rules; rewrite K0 !mx11.
move: K1; rewrite solve_eq2; last by rewrite unit11 !mx11.
rewrite mx11_eqE /= !mx11 => E1.
have -> : K`_1 0 0 = 2%:R.
  apply: (@mulfI _ (1 + 2^-1 * 1 * 1)); first by [].
  by rewrite E1; num.
by move/eqP; vm_compute.
Qed.

Lemma memory_trapz_refuted :
  exists (dt : rat) (K E mem : seq 'M[rat]_1),
    memory_trapz dt K E = Ok mem /\ ~ is_memory_trapz dt K E mem.
Proof.
have [mem Em [sz h0 H]] := @memory_trapzE _ 1 1 (1 : rat) [:: c1 0; c1 1] [:: c1 1; c1 1; c1 1] isT isT.
exists 1, [:: c1 0; c1 1], [:: c1 1; c1 1; c1 1], mem; split=> // -[_ _ /(_ 2%N isT)].
rewrite H // memory_trapz_coded_out // => /mx11_eqE; rules => /eqP; by vm_compute.
Qed.

Lemma evolve_trapz_refuted :
  exists (dt : rat) (len : nat) (K : seq 'M[rat]_1) (E0 F : 'M[rat]_1) (G : seq 'M[rat]_1),
    solve_ide_trapz dt len K E0 F = Ok G /\ ~ evolves_trapz dt K F G.
Proof.
exists 1, 2%N, [:: c1 0; c1 1], (c1 1), (c1 0), [:: c1 1; c1 1]; split.
  apply/ide_trapz_charact; split; split=> //; first by rewrite unit11 !mx11.
  by lags; move=> _; rewrite /ide_coded /evol_sum big_geq // mx11_eqE /= !mx11; num.
by move=> /(_ 1%N isT); rewrite mx11_eqE /=; rules => /eqP; vm_compute.
Qed.

Lemma evolve_rect_refuted :
  exists (dt : rat) (len : nat) (K : seq 'M[rat]_1) (E0 F : 'M[rat]_1) (G : seq 'M[rat]_1),
    solve_ide_rect dt len K E0 F = Ok G /\ ~ evolves_rect dt K F G.
Proof.
exists 1, 3%N, [:: c1 0; c1 1; c1 0], (c1 1), (c1 0), [:: c1 1; c1 1; c1 1]; split.
  apply/ide_rect_charact; split; split=> //; first by rewrite unit11 !mx11.
  by lags; move=> _; rewrite /ide_coded /evol_sum big_geq // mx11_eqE /= !mx11; num.
by move=> /(_ 2%N isT); rewrite mx11_eqE /=; rules => /eqP; vm_compute.
Qed.

Lemma flux_trapz_refuted :
  exists (dt : rat) (G K r : seq 'M[rat]_1),
    flux_memory QTrapz dt G K = Ok r /\
    ~ (forall n, (0 < n < size G)%N ->
         r`_n = - trapz_rule dt (mem_integrand G K n) (minn n (size K).-1)).
Proof.
have [r E [sz h0 H]] := @flux_trapzE _ 1 1 (1 : rat) [:: c1 1; c1 1; c1 1] [:: c1 1; c1 1] isT isT.
exists 1, [:: c1 1; c1 1; c1 1], [:: c1 1; c1 1], r; split=> // /(_ 1%N isT).
by rewrite H //= big_geq //; rewrite mx11_eqE /=; rules => /eqP; vm_compute.
Qed.

Lemma flux_rect_refuted :
  exists (dt : rat) (G K r : seq 'M[rat]_1),
    flux_memory QRect dt G K = Ok r /\
    ~ (forall n, (0 < n < size G)%N ->
         r`_n = - rect_rule dt (mem_integrand G K n) (minn n (size K).-1)).
Proof.
have [r E [sz h0 H]] := @flux_rectE _ 1 1 (1 : rat) [:: c1 1; c1 1; c1 1] [:: c1 1; c1 1] isT isT.
exists 1, [:: c1 1; c1 1; c1 1], [:: c1 1; c1 1], r; split=> // /(_ 1%N isT).
by rewrite H //=; rewrite mx11_eqE /=; rules => /eqP; vm_compute.
Qed.

(** The stabilised evolution does succeed on some input (one kernel sample). *)
Lemma ex_stab :
  exists G, solve_ide_trapz_stab (1 : rat) 2 [:: c1 0] (c1 1) (c1 0) = Ok G.
Proof.
rewrite /solve_ide_trapz_stab /= finvE /=; last by rewrite unit11 !mx11.
rewrite /for_ /= /section_axis1 /= /slice /= /trapz_integral /= /for_ /=.
have -> : c1 0 = 0 by apply: mx11_eq; rewrite !mx11.
rewrite !mulmx0 !scaler0 subr0 !addr0 invmx1 mulmx1.
rewrite /simplex_step; case: ifP => [|_] /=; last by eexists.
by rewrite !big_ord_recl !big_ord0 !mxE addr0 addr0.
Qed.
