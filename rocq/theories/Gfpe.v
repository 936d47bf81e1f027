(** * Generalised Fokker-Planck workflow: gle_estimation.py:152-163 ([to_gfpe]) followed by the
    estimation calls, and [evolve_volterra] (models.py:719-757).

    [to_gfpe] makes the time derivative of the basis the observable and switches the range
    projection off.  Model class: [Pos_gle_overdamped] (or [Pos_gle_no_vel_basis], which has the
    same basis vectors). *)
From mathcomp Require Import all_ssreflect all_algebra.
From mathcomp Require Import complex.
From Verif Require Import Base FKernel Model Estimator Correlation CorrsLoop.
Set Implicit Arguments.
Unset Strict Implicit.
Unset Printing Implicit Defensive.
Import GRing.Theory.
Local Open Scope ring_scope.

Section Gfpe.
Variables (R : realFieldType) (dx N : nat).
Variables (val : 'rV[R]_dx -> 'rV[R]_N) (der : 'rV[R]_dx -> 'M[R]_(N, dx)).

Definition gfpe_sample o (s : sample R dx o) : sample R dx N :=
  (s_t s, s_x s, s_v s, s_a s, dEk (Pos_gle_overdamped o val der false) s).

Definition to_gfpe o (trajs : seq (seq (sample R dx o))) : seq (seq (sample R dx N)) :=
  [seq [seq gfpe_sample s | s <- xva] | xva <- trajs].

Definition gfpe_model : model_fns R dx N := Pos_gle_overdamped N val der false.

End Gfpe.

(** models.py:719-757.  Squareness of the coefficients is in the types.  Line 731 compares
    the number of rows of [G0] with the number of basis functions.  An unknown method
    leaves [res] unassigned. *)
Inductive evolve_method := ERect | ETrapz | EStab | EOther.
Section Evolve.
Variables (R : realFieldType) (N p : nat).
Definition evolve_volterra (dt : R) (G0 : 'M[R]_(p, N)) (len : nat) (mt : evolve_method) (trunc_ind : option nat)
    (force : 'M[R]_N) (kernel : seq 'M[R]_N) : res (seq R * seq 'M[R]_(p, N)) :=
  let! _ := guard (p == N) ValueError in
  let trunc := if trunc_ind is Some n.+1 then n.+1 else size kernel in
  let coeffs := take trunc kernel in
  let! r := match mt with
            | ERect => solve_ide_rect dt len coeffs G0 force
            | ETrapz => solve_ide_trapz dt len coeffs G0 force
            | EStab => solve_ide_trapz_stab dt len coeffs G0 force
            | EOther => Err UnboundLocalError
            end in
  Ok (mkseq (fun i => i%:R * dt) len, r).
End Evolve.

(** The calls of the example [plot_gfpe.py]. *)
Section Run.
Variables (R : rcfType) (w : nat -> R[i]) (dx N : nat).
Variables (val : 'rV[R]_dx -> 'rV[R]_N) (der : 'rV[R]_dx -> 'M[R]_(N, dx)).
Record gfpe_result := GfpeResult {
  g_force : 'M[R]_N; g_corrs : corrs_data R N N; g_times : seq R; g_kernel : seq 'M[R]_N }.
Definition run_gfpe o (trajs : seq (seq (sample R dx o))) (rt : corr_routine) (so : bool) (trunc : nat)
    (dt : R) (mt : volterra_method) (k0 : option 'M[R]_N) : res gfpe_result :=
  let trajs := to_gfpe val der trajs in
  let m := gfpe_model val der in
  let! cG := compute_mean_force m trajs in
  let! cd := compute_corrs w rt so trunc (Some cG.1) trajs in
  let! tk := compute_kernel dt trunc cd mt k0 in
  Ok (GfpeResult cG.1 cd tk.1 tk.2).
End Run.
