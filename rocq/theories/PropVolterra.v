(** * Properties C01-C08, C10, C12: Volterra inversion. *)
From mathcomp Require Import all_ssreflect all_algebra.
From Verif Require Import Base FKernel Quadrature FKernelSpec MemorySpec Mx11.
From Verif Require Import FKernelLaws FKernelLaws2 FKernelProofs2 MemoryProofs VolterraMain VolterraWitness.
Set Implicit Arguments.
Unset Strict Implicit.
Unset Printing Implicit Defensive.
Import GRing.Theory.
Local Open Scope ring_scope.

(** ** C01 *)
Theorem C01_rectangular_inversion_solves (R : realFieldType) (d m : nat) (dt : R)
    (B : seq 'M[R]_d) (D K : seq 'M[R]_(d, m)) :
  kernel_first_kind_rect dt B D = Ok K <->
  ([/\ size D = size B, (1 < size B)%N & dt *: B`_1 \in unitmx] /\
   [/\ size K = size B, K`_(size B).-1 = 0 & solves_rect dt B D K]).
Proof. exact: rect_main. Qed.
Print Assumptions C01_rectangular_inversion_solves.

Theorem C01_rectangular_inversion_unique (R : realFieldType) (d m : nat) (dt : R)
    (B : seq 'M[R]_d) (D K K' : seq 'M[R]_(d, m)) :
  kernel_first_kind_rect dt B D = Ok K -> size K' = size B -> solves_rect dt B D K' ->
  forall i, (i < (size B).-1)%N -> K'`_i = K`_i.
Proof. exact: rect_unique. Qed.
Print Assumptions C01_rectangular_inversion_unique.

Example C01_example :
  kernel_first_kind_rect 1 [:: c1 1; c1 2%:R; c1 3%:R] [:: c1 5%:R; c1 (- 2%:R); c1 (- 7%:R)]
  = Ok [:: c1 1; c1 2%:R; c1 0].
Proof. exact: ex_rect. Qed.

(** ** C02 *)
Theorem C02_trapezoidal_inversion_solves (R : realFieldType) (d m : nat) (dt : R)
    (k0 : 'M[R]_(d, m)) (B : seq 'M[R]_d) (D K : seq 'M[R]_(d, m)) :
  kernel_first_kind_trapz dt k0 B D = Ok K <->
  ([/\ size D = size B, (0 < size B)%N & (2^-1 * dt) *: B`_0 \in unitmx] /\
   [/\ size K = size B, K`_0 = k0 & solves_trapz dt B D K]).
Proof. exact: trapz_main. Qed.
Print Assumptions C02_trapezoidal_inversion_solves.

Example C02_example :
  kernel_first_kind_trapz 2%:R (c1 3%:R) [:: c1 1; c1 2%:R] [:: c1 0; c1 (- 10%:R)]
  = Ok [:: c1 3%:R; c1 4%:R].
Proof. exact: ex_trapz. Qed.

(** ** C03 *)
Theorem C03_second_kind_rect_solves (R : realFieldType) (d m : nat) (dt : R)
    (k0 : 'M[R]_(d, m)) (B0 : 'M[R]_d) (Bd : seq 'M[R]_d) (Dd K : seq 'M[R]_(d, m)) :
  kernel_second_kind_rect dt k0 B0 Bd Dd = Ok K <->
  ([/\ size Dd = size Bd, (0 < size Bd)%N & B0 \in unitmx] /\
   [/\ size K = size Bd, K`_0 = k0 & solves2_rect dt B0 Bd Dd K]).
Proof. exact: rect2_main. Qed.
Print Assumptions C03_second_kind_rect_solves.

Theorem C03_second_kind_trapz_solves (R : realFieldType) (d m : nat) (dt : R)
    (k0 : 'M[R]_(d, m)) (B0 : 'M[R]_d) (Bd : seq 'M[R]_d) (Dd K : seq 'M[R]_(d, m)) :
  kernel_second_kind_trapz dt k0 B0 Bd Dd = Ok K <->
  ([/\ size Dd = size Bd, (0 < size Bd)%N & B0 - (2^-1 * dt) *: Bd`_0 \in unitmx] /\
   [/\ size K = size Bd, K`_0 = k0 & solves2_trapz dt B0 Bd Dd K]).
Proof. exact: trapz2_main. Qed.
Print Assumptions C03_second_kind_trapz_solves.

Example C03_example_rect :
  kernel_second_kind_rect 1 (c1 3%:R) (c1 2%:R) [:: c1 0; c1 2%:R] [:: c1 0; c1 4%:R]
  = Ok [:: c1 3%:R; c1 5%:R].
Proof. exact: ex_rect2. Qed.
Example C03_example_trapz :
  kernel_second_kind_trapz 2%:R (c1 3%:R) (c1 2%:R) [:: c1 1; c1 2%:R] [:: c1 0; c1 4%:R]
  = Ok [:: c1 3%:R; c1 10%:R].
Proof. exact: ex_trapz2. Qed.

(** ** C04 (false; see DESIGN.md finding F1) *)
Theorem C04_midpoint_refuted :
  exists (dt : rat) (B : seq 'M[rat]_1) (D K : seq 'M[rat]_1),
    kernel_first_kind_midpoint dt B D = Ok K /\ ~ solves_midpoint dt B D K.
Proof. exact: midpoint_refuted. Qed.
Print Assumptions C04_midpoint_refuted.

(** What is true: the coded equation (correlations at the even lags), and the full
    property for correlations equal at lags [2k] and [2k+1]. *)
Theorem C04_midpoint_coded_partial (R : realFieldType) (d m : nat) (dt : R)
    (B : seq 'M[R]_d) (D K : seq 'M[R]_(d, m)) :
  kernel_first_kind_midpoint dt B D = Ok K <->
  ([/\ size D = size B, (1 < size B)%N & (2 * dt) *: B`_1 \in unitmx] /\
   [/\ size K = midpoint_len (size B),
       forall j, (maxn 1 ((size B).-1 %/ 2) <= j)%N -> K`_j = 0
     & forall i, (i < maxn 1 ((size B).-1 %/ 2))%N ->
         (2 * dt) *: (\sum_(j < i) B`_(2 * (i - j)) *m K`_j + B`_1 *m K`_i)
         = - D`_(2 * i + 1)]).
Proof. exact: mid_main. Qed.
Print Assumptions C04_midpoint_coded_partial.

Theorem C04_midpoint_locally_constant_partial (R : realFieldType) (d m : nat) (dt : R)
    (B : seq 'M[R]_d) (D K : seq 'M[R]_(d, m)) :
  kernel_first_kind_midpoint dt B D = Ok K ->
  (forall k, (0 < k)%N -> B`_(2 * k) = B`_(2 * k + 1)) ->
  forall i, (i < maxn 1 ((size B).-1 %/ 2))%N ->
    midpoint_rule (2 * dt) (fun j => B`_(2 * (i - j) + 1) *m K`_j) i.+1 = - D`_(2 * i + 1).
Proof. exact: mid_solves_locally_constant. Qed.
Print Assumptions C04_midpoint_locally_constant_partial.

Example C04_example : kernel_first_kind_midpoint 2^-1 mid_B mid_D = Ok [:: c1 1; c1 0].
Proof. exact: ex_midpoint. Qed.

(** ** C05 *)
Theorem C05_rectangular_buffer_refuted :
  exists (dt : rat) (B : seq 'M[rat]_1) (D buf buf' K K' : seq 'M[rat]_1),
    [/\ size buf = size B, size buf' = size B,
        kernel_first_kind_rect_buf buf dt B D = Ok K,
        kernel_first_kind_rect_buf buf' dt B D = Ok K' & K <> K'].
Proof. exact: rect_buffer_refuted. Qed.
Print Assumptions C05_rectangular_buffer_refuted.

Theorem C05_midpoint_buffer_refuted :
  exists (dt : rat) (B : seq 'M[rat]_1) (D buf buf' K K' : seq 'M[rat]_1),
    [/\ size buf = midpoint_len (size B), size buf' = midpoint_len (size B),
        kernel_first_kind_midpoint_buf buf dt B D = Ok K,
        kernel_first_kind_midpoint_buf buf' dt B D = Ok K' & K <> K'].
Proof. exact: midpoint_buffer_refuted. Qed.
Print Assumptions C05_midpoint_buffer_refuted.

Theorem C05_trapz_buffer_independent (R : realFieldType) (d m : nat)
    (buf buf' : seq 'M[R]_(d, m)) (dt : R) k0 (B : seq 'M[R]_d) D :
  size buf = size B -> size buf' = size B ->
  kernel_first_kind_trapz_buf buf dt k0 B D = kernel_first_kind_trapz_buf buf' dt k0 B D.
Proof. exact: trapz_buf_indep. Qed.
Print Assumptions C05_trapz_buffer_independent.

Theorem C05_second_rect_buffer_independent (R : realFieldType) (d m : nat)
    (buf buf' : seq 'M[R]_(d, m)) (dt : R) k0 (B0 : 'M[R]_d) (Bd : seq 'M[R]_d) Dd :
  size buf = size Bd -> size buf' = size Bd ->
  kernel_second_kind_rect_buf buf dt k0 B0 Bd Dd = kernel_second_kind_rect_buf buf' dt k0 B0 Bd Dd.
Proof. exact: rect2_buf_indep. Qed.
Print Assumptions C05_second_rect_buffer_independent.

Theorem C05_second_trapz_buffer_independent (R : realFieldType) (d m : nat)
    (buf buf' : seq 'M[R]_(d, m)) (dt : R) k0 (B0 : 'M[R]_d) (Bd : seq 'M[R]_d) Dd :
  size buf = size Bd -> size buf' = size Bd ->
  kernel_second_kind_trapz_buf buf dt k0 B0 Bd Dd = kernel_second_kind_trapz_buf buf' dt k0 B0 Bd Dd.
Proof. exact: trapz2_buf_indep. Qed.
Print Assumptions C05_second_trapz_buffer_independent.

(** Rectangles: all but the last sample; midpoint: everything when the number of
    correlation samples is odd. *)
Theorem C05_rectangular_prefix_partial (R : realFieldType) (d m : nat)
    (buf buf' : seq 'M[R]_(d, m)) (dt : R) (B : seq 'M[R]_d) D K K' i :
  size buf = size B -> size buf' = size B ->
  kernel_first_kind_rect_buf buf dt B D = Ok K ->
  kernel_first_kind_rect_buf buf' dt B D = Ok K' ->
  (i < (size B).-1)%N -> K`_i = K'`_i.
Proof. exact: rect_buf_prefix. Qed.
Print Assumptions C05_rectangular_prefix_partial.

Theorem C05_midpoint_odd_partial (R : realFieldType) (d m : nat)
    (buf buf' : seq 'M[R]_(d, m)) (dt : R) (B : seq 'M[R]_d) D :
  size buf = midpoint_len (size B) -> size buf' = midpoint_len (size B) ->
  odd (size B) || (size B == 2%N) ->
  forall K, kernel_first_kind_midpoint_buf buf dt B D = Ok K ->
            kernel_first_kind_midpoint_buf buf' dt B D = Ok K.
Proof. exact: mid_buf_indep. Qed.
Print Assumptions C05_midpoint_odd_partial.

(** The zero-filled output f2py provides is what the user sees there, whatever
    the data. *)
Theorem C05_rectangular_last_is_zero (R : realFieldType) (d m : nat) (dt : R)
    (B : seq 'M[R]_d) (D K : seq 'M[R]_(d, m)) :
  kernel_first_kind_rect dt B D = Ok K -> size K = size B /\ K`_(size B).-1 = 0.
Proof. exact: rect_last_zero. Qed.
Print Assumptions C05_rectangular_last_is_zero.

(** ** C06 *)
Theorem C06_rectangular_causal (R : realFieldType) (d m : nat) (dt : R)
    (B B' : seq 'M[R]_d) (D D' K K' : seq 'M[R]_(d, m)) n :
  kernel_first_kind_rect dt B D = Ok K -> kernel_first_kind_rect dt B' D' = Ok K' ->
  (n < size B)%N -> (n < size B')%N ->
  (forall j, (j <= n)%N -> B`_j = B'`_j /\ D`_j = D'`_j) ->
  forall j, (j < n)%N -> K`_j = K'`_j.
Proof. exact: rect_prefix. Qed.
Print Assumptions C06_rectangular_causal.

Theorem C06_midpoint_causal (R : realFieldType) (d m : nat) (dt : R)
    (B B' : seq 'M[R]_d) (D D' K K' : seq 'M[R]_(d, m)) n :
  kernel_first_kind_midpoint dt B D = Ok K -> kernel_first_kind_midpoint dt B' D' = Ok K' ->
  (n < size B)%N -> (n < size B')%N ->
  (forall j, (j <= n)%N -> B`_j = B'`_j /\ D`_j = D'`_j) ->
  forall j, (2 * j + 1 < n)%N || (j == 0)%N && (0 < n)%N -> K`_j = K'`_j.
Proof. exact: mid_prefix. Qed.
Print Assumptions C06_midpoint_causal.

Theorem C06_trapezoidal_causal (R : realFieldType) (d m : nat) (dt : R) k0
    (B B' : seq 'M[R]_d) (D D' K K' : seq 'M[R]_(d, m)) n :
  kernel_first_kind_trapz dt k0 B D = Ok K -> kernel_first_kind_trapz dt k0 B' D' = Ok K' ->
  (n < size B)%N -> (n < size B')%N ->
  (forall j, (j <= n)%N -> B`_j = B'`_j /\ D`_j = D'`_j) ->
  forall j, (j <= n)%N -> K`_j = K'`_j.
Proof. exact: trapz_prefix. Qed.
Print Assumptions C06_trapezoidal_causal.

Theorem C06_second_rect_causal (R : realFieldType) (d m : nat) (dt : R) k0 (B0 : 'M[R]_d)
    (Bd Bd' : seq 'M[R]_d) (Dd Dd' K K' : seq 'M[R]_(d, m)) n :
  kernel_second_kind_rect dt k0 B0 Bd Dd = Ok K ->
  kernel_second_kind_rect dt k0 B0 Bd' Dd' = Ok K' ->
  (n < size Bd)%N -> (n < size Bd')%N ->
  (forall j, (j <= n)%N -> Bd`_j = Bd'`_j /\ Dd`_j = Dd'`_j) ->
  forall j, (j <= n)%N -> K`_j = K'`_j.
Proof. exact: rect2_prefix. Qed.
Print Assumptions C06_second_rect_causal.

Theorem C06_second_trapz_causal (R : realFieldType) (d m : nat) (dt : R) k0 (B0 : 'M[R]_d)
    (Bd Bd' : seq 'M[R]_d) (Dd Dd' K K' : seq 'M[R]_(d, m)) n :
  kernel_second_kind_trapz dt k0 B0 Bd Dd = Ok K ->
  kernel_second_kind_trapz dt k0 B0 Bd' Dd' = Ok K' ->
  (n < size Bd)%N -> (n < size Bd')%N ->
  (forall j, (j <= n)%N -> Bd`_j = Bd'`_j /\ Dd`_j = Dd'`_j) ->
  forall j, (j <= n)%N -> K`_j = K'`_j.
Proof. exact: trapz2_prefix. Qed.
Print Assumptions C06_second_trapz_causal.

(** ** C07.  [chg2 P A = P A P^T], [chg1 P A = P A], [chgK P A = (P^T)^-1 A],
    [chgE P e = e P^T] (FKernelLaws2.v). *)
Theorem C07_rectangular_basis_change (R : realFieldType) (d m : nat) (P : 'M[R]_d) (dt : R)
    (B : seq 'M[R]_d) (D K : seq 'M[R]_(d, m)) :
  P \in unitmx -> kernel_first_kind_rect dt B D = Ok K ->
  kernel_first_kind_rect dt [seq P *m A *m P^T | A <- B] [seq P *m A | A <- D]
  = Ok [seq invmx P^T *m A | A <- K].
Proof. by move=> uP; exact: rect_basis_change. Qed.
Print Assumptions C07_rectangular_basis_change.

Theorem C07_midpoint_basis_change (R : realFieldType) (d m : nat) (P : 'M[R]_d) (dt : R)
    (B : seq 'M[R]_d) (D K : seq 'M[R]_(d, m)) :
  P \in unitmx -> kernel_first_kind_midpoint dt B D = Ok K ->
  kernel_first_kind_midpoint dt [seq P *m A *m P^T | A <- B] [seq P *m A | A <- D]
  = Ok [seq invmx P^T *m A | A <- K].
Proof. by move=> uP; exact: mid_basis_change. Qed.
Print Assumptions C07_midpoint_basis_change.

Theorem C07_trapezoidal_basis_change (R : realFieldType) (d m : nat) (P : 'M[R]_d) (dt : R)
    k0 (B : seq 'M[R]_d) (D K : seq 'M[R]_(d, m)) :
  P \in unitmx -> kernel_first_kind_trapz dt k0 B D = Ok K ->
  kernel_first_kind_trapz dt (invmx P^T *m k0)
    [seq P *m A *m P^T | A <- B] [seq P *m A | A <- D]
  = Ok [seq invmx P^T *m A | A <- K].
Proof. by move=> uP; exact: trapz_basis_change. Qed.
Print Assumptions C07_trapezoidal_basis_change.

Theorem C07_second_rect_basis_change (R : realFieldType) (d m : nat) (P : 'M[R]_d) (dt : R)
    k0 (B0 : 'M[R]_d) (Bd : seq 'M[R]_d) (Dd K : seq 'M[R]_(d, m)) :
  P \in unitmx -> kernel_second_kind_rect dt k0 B0 Bd Dd = Ok K ->
  kernel_second_kind_rect dt (invmx P^T *m k0) (P *m B0 *m P^T)
    [seq P *m A *m P^T | A <- Bd] [seq P *m A | A <- Dd]
  = Ok [seq invmx P^T *m A | A <- K].
Proof. by move=> uP; exact: rect2_basis_change. Qed.
Print Assumptions C07_second_rect_basis_change.

Theorem C07_second_trapz_basis_change (R : realFieldType) (d m : nat) (P : 'M[R]_d) (dt : R)
    k0 (B0 : 'M[R]_d) (Bd : seq 'M[R]_d) (Dd K : seq 'M[R]_(d, m)) :
  P \in unitmx -> kernel_second_kind_trapz dt k0 B0 Bd Dd = Ok K ->
  kernel_second_kind_trapz dt (invmx P^T *m k0) (P *m B0 *m P^T)
    [seq P *m A *m P^T | A <- Bd] [seq P *m A | A <- Dd]
  = Ok [seq invmx P^T *m A | A <- K].
Proof. by move=> uP; exact: trapz2_basis_change. Qed.
Print Assumptions C07_second_trapz_basis_change.

Theorem C07_memory_rect_invariant (R : realFieldType) (d m : nat) (P : 'M[R]_d) (dt : R)
    (K : seq 'M[R]_(d, m)) (E : seq 'rV[R]_d) :
  P \in unitmx -> (0 < size K)%N -> (0 < size E)%N ->
  memory_rect dt [seq invmx P^T *m A | A <- K] [seq e *m P^T | e <- E] = memory_rect dt K E.
Proof. by move=> uP; exact: memory_rect_basis_change. Qed.
Print Assumptions C07_memory_rect_invariant.

Theorem C07_memory_trapz_invariant (R : realFieldType) (d m : nat) (P : 'M[R]_d) (dt : R)
    (K : seq 'M[R]_(d, m)) (E : seq 'rV[R]_d) :
  P \in unitmx -> (0 < size K)%N -> (0 < size E)%N ->
  memory_trapz dt [seq invmx P^T *m A | A <- K] [seq e *m P^T | e <- E] = memory_trapz dt K E.
Proof. by move=> uP; exact: memory_trapz_basis_change. Qed.
Print Assumptions C07_memory_trapz_invariant.

Theorem C07_kernel_value_invariant (R : realFieldType) (d m : nat) (P : 'M[R]_d)
    (e : 'rV[R]_d) (X : 'M[R]_(d, m)) :
  P \in unitmx -> (e *m P^T) *m (invmx P^T *m X) = e *m X.
Proof. by move=> uP; exact: (chgE_mul uP). Qed.
Print Assumptions C07_kernel_value_invariant.

(** ** C08.  [lincomb a b s t] is the samplewise combination [a s + b t]. *)
Theorem C08_rectangular_linear (R : realFieldType) (d m : nat) (dt a b : R)
    (B : seq 'M[R]_d) (D1 D2 K1 K2 : seq 'M[R]_(d, m)) :
  kernel_first_kind_rect dt B D1 = Ok K1 -> kernel_first_kind_rect dt B D2 = Ok K2 ->
  kernel_first_kind_rect dt B (lincomb a b D1 D2) = Ok (lincomb a b K1 K2).
Proof. exact: rect_linear. Qed.
Print Assumptions C08_rectangular_linear.

Theorem C08_midpoint_linear (R : realFieldType) (d m : nat) (dt a b : R)
    (B : seq 'M[R]_d) (D1 D2 K1 K2 : seq 'M[R]_(d, m)) :
  kernel_first_kind_midpoint dt B D1 = Ok K1 -> kernel_first_kind_midpoint dt B D2 = Ok K2 ->
  kernel_first_kind_midpoint dt B (lincomb a b D1 D2) = Ok (lincomb a b K1 K2).
Proof. exact: mid_linear. Qed.
Print Assumptions C08_midpoint_linear.

Theorem C08_trapezoidal_linear (R : realFieldType) (d m : nat) (dt a b : R) k1 k2
    (B : seq 'M[R]_d) (D1 D2 K1 K2 : seq 'M[R]_(d, m)) :
  kernel_first_kind_trapz dt k1 B D1 = Ok K1 -> kernel_first_kind_trapz dt k2 B D2 = Ok K2 ->
  kernel_first_kind_trapz dt (a *: k1 + b *: k2) B (lincomb a b D1 D2) = Ok (lincomb a b K1 K2).
Proof. exact: trapz_linear. Qed.
Print Assumptions C08_trapezoidal_linear.

Theorem C08_second_rect_linear (R : realFieldType) (d m : nat) (dt a b : R) k1 k2
    (B0 : 'M[R]_d) (Bd : seq 'M[R]_d) (D1 D2 K1 K2 : seq 'M[R]_(d, m)) :
  kernel_second_kind_rect dt k1 B0 Bd D1 = Ok K1 ->
  kernel_second_kind_rect dt k2 B0 Bd D2 = Ok K2 ->
  kernel_second_kind_rect dt (a *: k1 + b *: k2) B0 Bd (lincomb a b D1 D2) = Ok (lincomb a b K1 K2).
Proof. exact: rect2_linear. Qed.
Print Assumptions C08_second_rect_linear.

Theorem C08_second_trapz_linear (R : realFieldType) (d m : nat) (dt a b : R) k1 k2
    (B0 : 'M[R]_d) (Bd : seq 'M[R]_d) (D1 D2 K1 K2 : seq 'M[R]_(d, m)) :
  kernel_second_kind_trapz dt k1 B0 Bd D1 = Ok K1 ->
  kernel_second_kind_trapz dt k2 B0 Bd D2 = Ok K2 ->
  kernel_second_kind_trapz dt (a *: k1 + b *: k2) B0 Bd (lincomb a b D1 D2) = Ok (lincomb a b K1 K2).
Proof. exact: trapz2_linear. Qed.
Print Assumptions C08_second_trapz_linear.

Theorem C08_zero_force_rectangular (R : realFieldType) (d m : nat) (dt : R)
    (B : seq 'M[R]_d) (K : seq 'M[R]_(d, m)) :
  kernel_first_kind_rect dt B (nseq (size B) 0) = Ok K -> K = nseq (size B) 0.
Proof. exact: zero_force_rect. Qed.
Print Assumptions C08_zero_force_rectangular.

Theorem C08_zero_force_trapezoidal (R : realFieldType) (d m : nat) (dt : R)
    (B : seq 'M[R]_d) (K : seq 'M[R]_(d, m)) :
  kernel_first_kind_trapz dt 0 B (nseq (size B) 0) = Ok K -> K = nseq (size B) 0.
Proof. exact: zero_force_trapz. Qed.
Print Assumptions C08_zero_force_trapezoidal.

(** ** C10 *)
Theorem C10_simpson_inversion_solves (R : realFieldType) (d m : nat) (dt : R)
    (k0 : 'M[R]_(d, m)) (B : seq 'M[R]_d) (D K : seq 'M[R]_(d, m)) :
  kernel_first_kind_simpson dt k0 B D = Ok K <->
  ([/\ size D = size B, (1 < size B)%N & (2^-1 * dt) *: B`_0 \in unitmx] /\
   [/\ size K = size B, K`_0 = k0 & solves_simpson dt B D K]).
Proof. exact: simp_charact. Qed.
Print Assumptions C10_simpson_inversion_solves.

Example C10_example :
  kernel_first_kind_simpson 2%:R (c1 3%:R) [:: c1 1; c1 2%:R] [:: c1 0; c1 (- 10%:R)]
  = Ok [:: c1 3%:R; c1 4%:R].
Proof. exact: ex_simpson. Qed.

(** The second-kind routine is wrong (finding F3); it is right when the lag-zero
    derivative vanishes. *)
Theorem C10_simpson_second_kind_refuted :
  exists (dt : rat) (k0 B0 : 'M[rat]_1) (Bd Dd K : seq 'M[rat]_1),
    kernel_second_kind_simpson dt k0 B0 Bd Dd = Ok K /\ ~ solves2_simpson dt B0 Bd Dd K.
Proof. exact: simpson2_refuted. Qed.
Print Assumptions C10_simpson_second_kind_refuted.

Theorem C10_simpson_second_kind_partial (R : realFieldType) (d m : nat) (dt : R)
    (k0 : 'M[R]_(d, m)) (B0 : 'M[R]_d) (Bd : seq 'M[R]_d) (Dd K : seq 'M[R]_(d, m)) :
  kernel_second_kind_simpson dt k0 B0 Bd Dd = Ok K -> Bd`_0 = 0 ->
  solves2_simpson dt B0 Bd Dd K.
Proof. exact: simp2_solves_stationary. Qed.
Print Assumptions C10_simpson_second_kind_partial.

(** ** C12 *)
Theorem C12_rectangular_recovers (R : realFieldType) (d m : nat) (dt : R)
    (B : seq 'M[R]_d) (D Ks : seq 'M[R]_(d, m)) :
  size D = size B -> (1 < size B)%N -> dt *: B`_1 \in unitmx ->
  size Ks = size B -> solves_rect dt B D Ks ->
  exists2 K, kernel_first_kind_rect dt B D = Ok K &
    forall i, (i < (size B).-1)%N -> K`_i = Ks`_i.
Proof. exact: rect_recovers. Qed.
Print Assumptions C12_rectangular_recovers.

Theorem C12_trapezoidal_recovers (R : realFieldType) (d m : nat) (dt : R)
    (B : seq 'M[R]_d) (D Ks : seq 'M[R]_(d, m)) :
  size D = size B -> (0 < size B)%N -> (2^-1 * dt) *: B`_0 \in unitmx ->
  size Ks = size B -> solves_trapz dt B D Ks ->
  kernel_first_kind_trapz dt Ks`_0 B D = Ok Ks.
Proof. exact: trapz_recovers. Qed.
Print Assumptions C12_trapezoidal_recovers.

Theorem C12_second_rect_recovers (R : realFieldType) (d m : nat) (dt : R) (B0 : 'M[R]_d)
    (Bd : seq 'M[R]_d) (Dd Ks : seq 'M[R]_(d, m)) :
  size Dd = size Bd -> (0 < size Bd)%N -> B0 \in unitmx ->
  size Ks = size Bd -> solves2_rect dt B0 Bd Dd Ks ->
  kernel_second_kind_rect dt Ks`_0 B0 Bd Dd = Ok Ks.
Proof. exact: rect2_recovers. Qed.
Print Assumptions C12_second_rect_recovers.

Theorem C12_second_trapz_recovers (R : realFieldType) (d m : nat) (dt : R) (B0 : 'M[R]_d)
    (Bd : seq 'M[R]_d) (Dd Ks : seq 'M[R]_(d, m)) :
  size Dd = size Bd -> (0 < size Bd)%N -> B0 - (2^-1 * dt) *: Bd`_0 \in unitmx ->
  size Ks = size Bd -> solves2_trapz dt B0 Bd Dd Ks ->
  kernel_second_kind_trapz dt Ks`_0 B0 Bd Dd = Ok Ks.
Proof. exact: trapz2_recovers. Qed.
Print Assumptions C12_second_trapz_recovers.
