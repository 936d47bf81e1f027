(** * Properties C13, C14, C16 (kernels), C17-C19: memory, window averages,
    evolution, flux. *)
From mathcomp Require Import all_ssreflect all_algebra.
From Verif Require Import Base FKernel Flux Quadrature MemorySpec Mx11.
From Verif Require Import MemoryProofs EvolveProofs VolterraMain VolterraWitness.
Set Implicit Arguments.
Unset Strict Implicit.
Unset Printing Implicit Defensive.
Import GRing.Theory.
Local Open Scope ring_scope.

(** ** C13 *)
Theorem C13_memory_rect (R : realFieldType) (d m : nat) (dt : R)
    (K : seq 'M[R]_(d, m)) (E : seq 'rV[R]_d) :
  (0 < size K)%N -> (0 < size E)%N ->
  exists2 mem, memory_rect dt K E = Ok mem & is_memory_rect dt K E mem.
Proof. exact: memory_rectE. Qed.
Print Assumptions C13_memory_rect.

(** ** C14 (false for trajectories longer than the kernel: finding F4) *)
Theorem C14_memory_trapz_refuted :
  exists (dt : rat) (K E mem : seq 'M[rat]_1),
    memory_trapz dt K E = Ok mem /\ ~ is_memory_trapz dt K E mem.
Proof. exact: memory_trapz_refuted. Qed.
Print Assumptions C14_memory_trapz_refuted.

Theorem C14_memory_trapz_partial (R : realFieldType) (d m : nat) (dt : R)
    (K : seq 'M[R]_(d, m)) (E : seq 'rV[R]_d) :
  (0 < size K)%N -> (0 < size E)%N ->
  exists2 mem, memory_trapz dt K E = Ok mem &
    [/\ size mem = size E, mem`_0 = 0
      & forall i, (0 < i < size E)%N ->
          mem`_i = - (trapz_rule dt (mem_integrand E K i) (minn i (size K).-1)
                      + (if ((size K).-1 < i)%N then dt *: mem_integrand E K i (size K).-1 else 0))].
Proof. exact: memory_trapz_main. Qed.
Print Assumptions C14_memory_trapz_partial.

(** ** C16, window averages computed by the Fortran routines *)
Theorem C16_corrs_trapz (R : realFieldType) (d m o : nat) (dt : R)
    (xi : seq 'rV[R]_m) (K : seq 'M[R]_(d, m)) (E : seq 'rV[R]_d) (left : seq 'rV[R]_o) :
  size E = size xi -> size left = size xi -> ((size K).-1 <= size xi)%N ->
  exists2 C, corrs_trapz dt xi K E left = Ok C &
    size C = (size K).-1 /\
    forall n, (n < (size K).-1)%N -> C`_n = window_average left (noise_trapz dt xi K E) n.
Proof. exact: corrs_trapzE. Qed.
Print Assumptions C16_corrs_trapz.

Theorem C16_corrs_rect (R : realFieldType) (d m o : nat) (dt : R)
    (xi : seq 'rV[R]_m) (K : seq 'M[R]_(d, m)) (E : seq 'rV[R]_d) (left : seq 'rV[R]_o) :
  size E = size xi -> size left = size xi -> (size K <= size xi)%N ->
  exists2 C, corrs_rect dt xi K E left = Ok C &
    size C = size K /\
    forall n, (n < size K)%N -> C`_n = window_average left (noise_rect dt xi K E) n.
Proof. exact: corrs_rectE. Qed.
Print Assumptions C16_corrs_rect.

Example C16_example :
  exists C, corrs_trapz (1 : rat) [:: c1 1; c1 2%:R; c1 3%:R] [:: c1 1; c1 1]
              [:: c1 1; c1 0; c1 1] [:: c1 1; c1 1; c1 1] = Ok C.
Proof.
by have [|||C E _] := @corrs_trapzE _ 1 1 1 (1 : rat) [:: c1 1; c1 2%:R; c1 3%:R]
  [:: c1 1; c1 1] [:: c1 1; c1 0; c1 1] [:: c1 1; c1 1; c1 1]; [| | |exists C].
Qed.

(** ** C17 (false: the far end of the window is dropped, finding F5) *)
Theorem C17_evolve_trapz_refuted :
  exists (dt : rat) (len : nat) (K : seq 'M[rat]_1) (E0 F : 'M[rat]_1) (G : seq 'M[rat]_1),
    solve_ide_trapz dt len K E0 F = Ok G /\ ~ evolves_trapz dt K F G.
Proof. exact: evolve_trapz_refuted. Qed.
Print Assumptions C17_evolve_trapz_refuted.

Theorem C17_evolve_rect_refuted :
  exists (dt : rat) (len : nat) (K : seq 'M[rat]_1) (E0 F : 'M[rat]_1) (G : seq 'M[rat]_1),
    solve_ide_rect dt len K E0 F = Ok G /\ ~ evolves_rect dt K F G.
Proof. exact: evolve_rect_refuted. Qed.
Print Assumptions C17_evolve_rect_refuted.

Theorem C17_evolve_trapz_partial (R : realFieldType) (d o : nat) (dt : R) len
    (K : seq 'M[R]_d) (E0 : 'M[R]_(o, d)) F G :
  (1 < size K)%N ->
  solve_ide_trapz dt len K E0 F = Ok G <->
  ([/\ (0 < len)%N & 1%:M + (2^-1 * dt ^+ 2) *: K`_0 \in unitmx] /\
   [/\ size G = len, G`_0 = E0
     & forall i, (0 < i < len)%N ->
         let n := minn i (size K).-1 in
         G`_i - G`_i.-1
         = dt *: (G`_i.-1 *m F - (trapz_rule dt (mem_integrand G K i) n
                                  - (2^-1 * dt) *: mem_integrand G K i n))]).
Proof. exact: evolve_trapz_main. Qed.
Print Assumptions C17_evolve_trapz_partial.

Theorem C17_evolve_rect_partial (R : realFieldType) (d o : nat) (dt : R) len
    (K : seq 'M[R]_d) (E0 : 'M[R]_(o, d)) F G :
  solve_ide_rect dt len K E0 F = Ok G <->
  ([/\ (0 < len)%N, (0 < size K)%N & 1%:M + (dt ^+ 2) *: K`_0 \in unitmx] /\
   [/\ size G = len, G`_0 = E0
     & forall i, (0 < i < len)%N ->
         G`_i - G`_i.-1
         = dt *: (G`_i.-1 *m F
                  - rect_rule dt (mem_integrand G K i) (maxn (minn i (size K).-1).-1 1))]).
Proof. exact: evolve_rect_main. Qed.
Print Assumptions C17_evolve_rect_partial.

(** ** C18 (in-bounds part false: finding F6) *)
Theorem C18_stab_reads_out_of_bounds_refuted (R : realFieldType) (d o : nat) (dt : R) len
    (K : seq 'M[R]_d) (E0 : 'M[R]_(o, d)) F :
  (1 < len)%N -> (1 < size K)%N -> 1%:M + (2^-1 * dt ^+ 2) *: K`_0 \in unitmx ->
  solve_ide_trapz_stab dt len K E0 F = Err OutOfBounds.
Proof. exact: stab_oob. Qed.
Print Assumptions C18_stab_reads_out_of_bounds_refuted.

Theorem C18_stab_simplex (R : realFieldType) (d o : nat) (dt : R) len
    (K : seq 'M[R]_d) (E0 : 'M[R]_(o, d)) F G :
  solve_ide_trapz_stab dt len K E0 F = Ok G ->
  forall i, (0 < i < len)%N -> on_simplex G`_i.
Proof. exact: stab_simplex. Qed.
Print Assumptions C18_stab_simplex.

Theorem C18_stab_succeeds_only (R : realFieldType) (d o : nat) (dt : R) len
    (K : seq 'M[R]_d) (E0 : 'M[R]_(o, d)) F G :
  solve_ide_trapz_stab dt len K E0 F = Ok G -> (1 < len)%N ->
  size K = 1%N /\ (len <= o.+1)%N.
Proof. exact: stab_needs. Qed.
Print Assumptions C18_stab_succeeds_only.

Example C18_example :
  exists G, solve_ide_trapz_stab (1 : rat) 2 [:: c1 0] (c1 1) (c1 0) = Ok G.
Proof. exact: ex_stab. Qed.

(** ** C19 (false: finding F7) *)
Theorem C19_flux_trapz_refuted :
  exists (dt : rat) (G K r : seq 'M[rat]_1),
    flux_memory QTrapz dt G K = Ok r /\
    ~ (forall n, (0 < n < size G)%N ->
         r`_n = - trapz_rule dt (mem_integrand G K n) (minn n (size K).-1)).
Proof. exact: flux_trapz_refuted. Qed.
Print Assumptions C19_flux_trapz_refuted.

Theorem C19_flux_rect_refuted :
  exists (dt : rat) (G K r : seq 'M[rat]_1),
    flux_memory QRect dt G K = Ok r /\
    ~ (forall n, (0 < n < size G)%N ->
         r`_n = - rect_rule dt (mem_integrand G K n) (minn n (size K).-1)).
Proof. exact: flux_rect_refuted. Qed.
Print Assumptions C19_flux_rect_refuted.

(** What it returns at step [n] is the rectangle-rule memory of step [n-1]. *)
Theorem C19_flux_rect_partial (R : realFieldType) (d m : nat) (dt : R)
    (G : seq 'M[R]_d) (K : seq 'M[R]_(d, m)) :
  (0 < size K)%N -> (0 < size G)%N ->
  exists2 r, flux_memory QRect dt G K = Ok r &
    [/\ size r = size G, r`_0 = 0
      & forall n, (0 < n < size G)%N ->
          r`_n = - rect_rule dt (mem_integrand G K n.-1) (minn n (size K)).-1].
Proof. exact: flux_rectE. Qed.
Print Assumptions C19_flux_rect_partial.

Theorem C19_flux_trapz_partial (R : realFieldType) (d m : nat) (dt : R)
    (G : seq 'M[R]_d) (K : seq 'M[R]_(d, m)) :
  (0 < size K)%N -> (0 < size G)%N ->
  exists2 r, flux_memory QTrapz dt G K = Ok r &
    [/\ size r = size G, r`_0 = 0
      & forall n, (0 < n < size G)%N ->
          let l := (minn n (size K)).-1 in
          let f := mem_integrand G K n.-1 in
          r`_n = - ((2^-1 * dt) *: f 0%N + dt *: \sum_(1 <= j < l) f j)].
Proof. exact: flux_trapzE. Qed.
Print Assumptions C19_flux_trapz_partial.

Theorem C19_flux_simpson_out_of_bounds (R : realFieldType) (d m : nat) (dt : R)
    (G : seq 'M[R]_d) (K : seq 'M[R]_(d, m)) :
  (0 < size K)%N -> (1 < size G)%N -> flux_memory QSimpson dt G K = Err OutOfBounds.
Proof. exact: flux_simpson_oob. Qed.
Print Assumptions C19_flux_simpson_out_of_bounds.

(** ** C64 (false: numpy multiplies by the transposed coefficients, finding F55) *)
Theorem C64_flux_force_partial (R : realFieldType) (d p : nat) (F : 'M[R]_d) (C : seq 'M[R]_(p, d)) :
  size (flux_force F C) = size C /\
  (forall n, (n < size C)%N -> (flux_force F C)`_n = C`_n *m F^T) /\
  (F^T = F -> forall n, (n < size C)%N -> (flux_force F C)`_n = C`_n *m F).
Proof. exact: flux_forceE. Qed.
Print Assumptions C64_flux_force_partial.

Theorem C64_flux_force_refuted (R : realFieldType) :
  exists (F : 'M[R]_2) (C : seq 'M[R]_2), (flux_force F C)`_0 <> C`_0 *m F.
Proof. exact: flux_force_refuted. Qed.
Print Assumptions C64_flux_force_refuted.

(** A symmetric and a non-symmetric coefficient matrix. *)
Example C64_example (R : realFieldType) :
  ((1%:M : 'M[R]_2)^T = 1%:M) /\ ((delta_mx 0 1 : 'M[R]_2)^T <> delta_mx 0 1).
Proof.
split; first exact: trmx1.
by rewrite trmx_delta => /matrixP /(_ 0 1) /eqP; rewrite !mxE /= eq_sym oner_eq0.
Qed.
