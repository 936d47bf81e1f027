(** * Property C23: correlations computed after the mean force. *)
From mathcomp Require Import all_ssreflect all_algebra.
From mathcomp Require Import complex.
From Verif Require Import Base Model Estimator EstimatorSpec CorrsLoop CorrsProofs EstimatorProofs3 CorrelationProofs.
Set Implicit Arguments.
Unset Strict Implicit.
Unset Printing Implicit Defensive.
Import GRing.Theory.
Local Open Scope ring_scope.

Notation fft_roots w := (forall k, (2 ^ k.+1)%N.-primitive_root (w (2 ^ k.+1)%N)).

(** Whatever the routine, [compute_corrs] returns the length-weighted mean of the
    correlations of the trajectories. *)
Theorem C23_pooled_correlations (R : rcfType) (w : nat -> R[i]) (dx o : nat) (m : model_fns R dx o)
    rt so trunc (c : 'M[R]_(mf m, o)) trajs :
  fft_roots w -> (0 < trunc)%N -> (0 < size trajs)%N ->
  (forall t, List.In t trajs -> (trunc <= size t)%N) ->
  compute_corrs w rt so trunc (Some c) trajs
  = Ok (corrs_of so trunc (pooled_corr (Ek m) (Ek m) trajs) (pooled_corr (Ek m) (ortho c) trajs)
          (pooled_corr (dEk m) (ortho c) trajs) (pooled_corr (dEk m) (Ek m) trajs)).
Proof. move=> wP; exact: compute_corrs_ok. Qed.
Print Assumptions C23_pooled_correlations.

(** Kernel basis contained in the span of the force basis. *)
Theorem C23_lag_zero (R : rcfType) (w : nat -> R[i]) (dx o : nat) (m : model_fns R dx o)
    rt so trunc c G S trajs :
  fft_roots w -> compute_mean_force m trajs = Ok (c, G) ->
  (forall s, Ek m s = Ef m s *m S) ->
  (0 < trunc)%N -> (forall t, List.In t trajs -> (trunc <= size t)%N) ->
  exists2 cd, compute_corrs w rt so trunc (Some c) trajs = Ok cd &
    [/\ size (bkbk cd) = trunc, size (bkdx cd) = trunc & (bkdx cd)`_0 = 0].
Proof. move=> wP; exact: bkdx_lag0. Qed.
Print Assumptions C23_lag_zero.

Theorem C23_overdamped (R : rcfType) (w : nat -> R[i]) (dx o N : nat)
    (val : 'rV[R]_dx -> 'rV[R]_N) (der : 'rV[R]_dx -> 'M[R]_(N, dx)) rp rt so trunc c G trajs :
  fft_roots w -> compute_mean_force (Pos_gle_overdamped o val der rp) trajs = Ok (c, G) ->
  (0 < trunc)%N -> (forall t, List.In t trajs -> (trunc <= size t)%N) ->
  exists2 cd, compute_corrs w rt so trunc (Some c) trajs = Ok cd & (bkdx cd)`_0 = 0.
Proof.
move=> wP E t0 ts; have HS s : Ek (Pos_gle_overdamped o val der rp) s = Ef (Pos_gle_overdamped o val der rp) s *m 1%:M.
  by rewrite mulmx1.
by have [cd -> [_ _ ?]] := bkdx_lag0 wP rt so E HS t0 ts; exists cd.
Qed.
Print Assumptions C23_overdamped.

Theorem C23_position_only (R : rcfType) (w : nat -> R[i]) (dx o N : nat)
    (val : 'rV[R]_dx -> 'rV[R]_N) (der : 'rV[R]_dx -> 'M[R]_(N, dx)) rt so trunc c G trajs :
  fft_roots w -> compute_mean_force (Pos_gle_no_vel_basis o val der) trajs = Ok (c, G) ->
  (0 < trunc)%N -> (forall t, List.In t trajs -> (trunc <= size t)%N) ->
  exists2 cd, compute_corrs w rt so trunc (Some c) trajs = Ok cd & (bkdx cd)`_0 = 0.
Proof. exact: C23_overdamped. Qed.
Print Assumptions C23_position_only.

Theorem C23_with_friction (R : rcfType) (w : nat -> R[i]) (dx o : nat) (b : basis_fns R dx) rt so trunc c G trajs :
  fft_roots w -> compute_mean_force (Pos_gle_with_friction o b) trajs = Ok (c, G) ->
  (0 < trunc)%N -> (forall t, List.In t trajs -> (trunc <= size t)%N) ->
  exists2 cd, compute_corrs w rt so trunc (Some c) trajs = Ok cd & (bkdx cd)`_0 = 0.
Proof.
move=> wP E t0 ts; have HS s : Ek (Pos_gle_with_friction o b) s
    = Ef (Pos_gle_with_friction o b) s *m col_mx 0 1%:M.
  by rewrite /= mul_row_col mulmx0 add0r mulmx1.
by have [cd -> [_ _ ?]] := bkdx_lag0 wP rt so E HS t0 ts; exists cd.
Qed.
Print Assumptions C23_with_friction.

(** Still zero after the projection on the range of the basis. *)
Theorem C23_after_projection (R : rcfType) (dx o k r : nat) (P : 'M[R]_(r, k)) (cd : corrs_data R k o) :
  (0 < size (bkdx cd))%N -> (bkdx cd)`_0 = 0 -> (bkdx (project_corrs P cd))`_0 = 0.
Proof. by move=> s0 h0; rewrite /= (nth_map 0) // h0 mulmx0. Qed.
Print Assumptions C23_after_projection.

Example C23_example (R : rcfType) :
  exists cG, compute_mean_force (Pos_gle_overdamped 1 id (fun=> 1%:M) false) (two_trajs R) = Ok cG.
Proof. exact: two_trajs_ok. Qed.
