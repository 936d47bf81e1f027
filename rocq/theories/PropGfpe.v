(** * Property C60: conservation in the generalised Fokker-Planck workflow. *)
From mathcomp Require Import all_ssreflect all_algebra.
From mathcomp Require Import complex.
From Verif Require Import Base Tactics Quadrature FKernelSpec MemorySpec VolterraMain KernelSpec KernelValues FKernel Model Estimator CorrsLoop Gfpe GfpeProofs GfpeWitness PropCorrs.
Set Implicit Arguments.
Unset Strict Implicit.
Unset Printing Implicit Defensive.
Import GRing.Theory.
Local Open Scope ring_scope.

(** [U]: columns of coefficients whose combination of basis functions has zero derivative,
    the column of ones for a partition of unity.  Force coefficients and every kernel sample
    are orthogonal to it, for each inversion method and each correlation routine. *)
Theorem C60_generator_conserves (R : rcfType) (w : nat -> R[i]) (dx N q : nat)
    (val : 'rV[R]_dx -> 'rV[R]_N) (der : 'rV[R]_dx -> 'M[R]_(N, dx)) (U : 'M[R]_(N, q))
    o (trajs : seq (seq (sample R dx o))) rt so trunc dt mt k0 r :
  fft_roots w -> (forall x, U^T *m der x = 0) ->
  (0 < trunc)%N -> (forall t, List.In t trajs -> (trunc <= size t)%N) ->
  (forall k1, k0 = Some k1 -> k1 *m U = 0) ->
  run_gfpe w val der trajs rt so trunc dt mt k0 = Ok r ->
  g_force r *m U = 0 /\ (forall i, (g_kernel r)`_i *m U = 0).
Proof. move=> wP; exact: gfpe_conserves. Qed.
Print Assumptions C60_generator_conserves.

(** The evolved coefficients keep the conserved combinations of the initial ones at every step. *)
Theorem C60_evolution_conserves (R : rcfType) (w : nat -> R[i]) (dx N q : nat)
    (val : 'rV[R]_dx -> 'rV[R]_N) (der : 'rV[R]_dx -> 'M[R]_(N, dx)) (U : 'M[R]_(N, q))
    o (trajs : seq (seq (sample R dx o))) rt so trunc dt mt k0 r
    p (G0 : 'M[R]_(p, N)) len em ti res :
  fft_roots w -> (forall x, U^T *m der x = 0) ->
  (0 < trunc)%N -> (forall t, List.In t trajs -> (trunc <= size t)%N) ->
  (forall k1, k0 = Some k1 -> k1 *m U = 0) ->
  run_gfpe w val der trajs rt so trunc dt mt k0 = Ok r -> em <> EStab ->
  evolve_volterra dt G0 len em ti (g_force r) (g_kernel r) = Ok res ->
  forall i, (i < len)%N -> (res.2)`_i *m U = G0 *m U.
Proof. move=> wP; exact: gfpe_evolution_conserves. Qed.
Print Assumptions C60_evolution_conserves.

(** The kernel is the one of the chosen inversion method for the correlations of the projected
    data, on the times of that method. *)
Theorem C60_kernel (R : rcfType) (w : nat -> R[i]) (dx N : nat)
    (val : 'rV[R]_dx -> 'rV[R]_N) (der : 'rV[R]_dx -> 'M[R]_(N, dx))
    o (trajs : seq (seq (sample R dx o))) rt so trunc dt mt k0 r :
  run_gfpe w val der trajs rt so trunc dt mt k0 = Ok r ->
  let c := g_corrs r in let ker := g_kernel r in
  match mt with
  | MRect => solves_rect dt (bkbk c) (bkdx c) ker /\ size ker = size (bkbk c)
  | MMidpoint => solves_coded_midpoint dt (bkbk c) (bkdx c) ker
  | MRichardson =>
      exists B3 D3 K K3,
        [/\ every_third (bkbk c) B3 /\ every_third (bkdx c) D3,
            solves_coded_midpoint dt (bkbk c) (bkdx c) K,
            solves_coded_midpoint (3%:R * dt) B3 D3 K3
          & forall i, (i < size ker)%N -> 8%:R *: ker`_i = 9%:R *: K`_(3 * i) - K3`_i]
  | MTrapz =>
      exists2 K, solves_trapz dt (bkbk c) (bkdx c) K /\ size K = size (bkbk c)
        & [/\ initial_value (bkbk c) (dotbkdx c) k0 K`_0, ker`_0 = K`_0,
              size ker = maxn 1 (size K).-1 & smoothed K ker]
  | MSecondRect =>
      exists2 dd, dotbkbk c = Some dd
        & [/\ initial_value (bkbk c) (dotbkdx c) k0 ker`_0, size ker = size dd
            & solves2_rect dt (bkbk c)`_0 dd (dotbkdx c) ker]
  | MSecondTrapz =>
      exists2 dd, dotbkbk c = Some dd
        & [/\ initial_value (bkbk c) (dotbkdx c) k0 ker`_0, size ker = size dd
            & solves2_trapz dt (bkbk c)`_0 dd (dotbkdx c) ker]
  | MOther => False
  end.
Proof.
rewrite /run_gfpe => E; unbind E cG E1; unbind E cd E2; unbind E tk E3; case: tk E3 E => t k Ek [<-].
exact: kernel_values Ek.
Qed.
Print Assumptions C60_kernel.

(** ** C17 for the method [evolve_volterra] of the model class: which part of the kernel is
    used ([None] and 0: all of it), the times, and one equation per step. *)
Theorem C17_model_trapz_partial (R : realFieldType) (N p : nat) (dt : R) (G0 : 'M[R]_(p, N)) len ti F K T G :
  let q := kept ti (size K) in (1 < q)%N ->
  evolve_volterra dt G0 len ETrapz ti F K = Ok (T, G) <->
  ([/\ p = N, (0 < len)%N & 1%:M + (2^-1 * dt ^+ 2) *: K`_0 \in unitmx] /\
   [/\ T = mkseq (fun i => i%:R * dt) len, size G = len, G`_0 = G0
     & forall i, (0 < i < len)%N ->
         let n := minn i q.-1 in
         G`_i - G`_i.-1
         = dt *: (G`_i.-1 *m F - (trapz_rule dt (mem_integrand G K i) n
                                  - (2^-1 * dt) *: mem_integrand G K i n))]).
Proof. exact: model_trapz. Qed.
Print Assumptions C17_model_trapz_partial.

Theorem C17_model_rect_partial (R : realFieldType) (N p : nat) (dt : R) (G0 : 'M[R]_(p, N)) len ti F K T G :
  let q := kept ti (size K) in
  evolve_volterra dt G0 len ERect ti F K = Ok (T, G) <->
  ([/\ p = N, (0 < len)%N, (0 < q)%N & 1%:M + dt ^+ 2 *: K`_0 \in unitmx] /\
   [/\ T = mkseq (fun i => i%:R * dt) len, size G = len, G`_0 = G0
     & forall i, (0 < i < len)%N ->
         G`_i - G`_i.-1
         = dt *: (G`_i.-1 *m F - rect_rule dt (mem_integrand G K i) (maxn (minn i q.-1).-1 1))]).
Proof. exact: model_rect. Qed.
Print Assumptions C17_model_rect_partial.

(** A kernel of three samples of which two are kept. *)
Example C17_model_example (R : realFieldType) :
  exists T G, evolve_volterra (1 : R) (1%:M : 'M[R]_2) 3 ETrapz (Some 2%N) 0 [:: 0; 1%:M; 1%:M] = Ok (T, G) /\
    G`_2 = (1%:M : 'M[R]_2).
Proof.
have := @model_trapz R 2 2 1 1%:M 3 (Some 2%N) 0 [:: 0; 1%:M; 1%:M] [:: 0; 1; 2%:R] [:: 1%:M; 1%:M; 1%:M].
move=> /(_ isT) H; exists [:: 0; 1; 2%:R], [:: 1%:M; 1%:M; 1%:M]; split=> //; apply/H; split.
  by split=> //; rewrite scaler0 addr0 unitmx1.
split=> //; first by rewrite /mkseq /= mul0r !mulr1.
move=> [|[|[|]]] // _ /=.
  rewrite /trapz_rule /mem_integrand /= big_ord_recl big_ord0 /= mulmx0 !mulmx1 add0r addr0 subrr.
  by rewrite !scale1r mulr1 add0r subrr oppr0.
rewrite /trapz_rule /mem_integrand /= big_ord_recl big_ord0 /= mulmx0 !mulmx1 add0r addr0 subrr.
by rewrite !scale1r mulr1 add0r subrr oppr0.
Qed.

(** Two hat functions on a segment and a trajectory of three points. *)
Example C60_example (R : rcfType) (w : nat -> R[i]) rt so : fft_roots w ->
  (forall x, (ones R)^T *m dhat x = 0) /\
  exists2 r, run_gfpe w (@hat R) (@dhat R) [:: hat_traj R] rt so 2 1 MRect None = Ok r & g_force r != 0.
Proof. by move=> wP; split=> [x|]; [exact: dhat_ones | exact: hat_run]. Qed.
