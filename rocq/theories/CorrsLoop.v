(** * Model of [compute_corrs] (gle_estimation.py:254-288, 428-494): correlations of
    every trajectory, averaged over trajectories, then projected. *)
From mathcomp Require Import all_ssreflect all_algebra.
From mathcomp Require Import complex.
From Verif Require Import Base Model Estimator Correlation.
Set Implicit Arguments.
Unset Strict Implicit.
Unset Printing Implicit Defensive.
Import GRing.Theory.
Local Open Scope ring_scope.

(** [method] and [vectorize] select the routine (gle_estimation.py:437-444). *)
Inductive corr_routine := FftND | Fft1D | DirectND | Direct1D.

Section Corrs.
Variables (R : rcfType) (w : nat -> R[i]) (dx o : nat).
Local Notation smp := (sample R dx o).

(** The array [(dim, time)] of a function of the samples. *)
Definition time_array p (f : smp -> 'rV[R]_p) (xva : seq smp) : 'M[R]_(p, size xva) :=
  \matrix_(i, t) f (tnth (in_tuple xva) t) 0 i.

(** [np.vectorize] of a routine on vectors: called for every pair of components. *)
Definition vectorized (f : seq R -> option (seq R) -> option nat -> res (seq R))
    p q T (a : 'M[R]_(p, T)) (b : 'M[R]_(q, T)) (trunc : nat) : res (seq 'M[R]_(p, q)) :=
  let call (i : 'I_p) (j : 'I_q) := f (row_seq a i) (Some (row_seq b j)) (Some trunc) in
  let! _ := mapM (fun ij => call ij.1 ij.2) (enum [finType of 'I_p * 'I_q]) in
  Ok (mkseq (fun l => \matrix_(i, j) (if call i j is Ok r then r`_l else 0))
        (len_trunc T (Some trunc))).

Definition correlate (rt : corr_routine) p q T (a : 'M[R]_(p, T)) (b : 'M[R]_(q, T)) (trunc : nat)
    : res (seq 'M[R]_(p, q)) :=
  match rt with
  | FftND => correlation_ND w a b (Some trunc)
  | Fft1D => vectorized (correlation_1D w) a b trunc
  | DirectND => correlation_direct_ND a b (Some trunc)
  | Direct1D => vectorized (@correlation_direct_1D R) a b trunc
  end.

Variable m : model_fns R dx o.

(** gle_estimation.py:428-494.  With [second_order_method=False] only the first lag of
    [dotbkdx] is computed. *)
Definition correlation_ufunc (rt : corr_routine) (second_order : bool) (trunc : nat)
    (c : 'M[R]_(mf m, o)) (weight : nat) (xva : seq smp) : res (corrs_data R (mk m) o) :=
  let E := time_array (Ek m) xva in
  let dE := time_array (dEk m) xva in
  let orth := time_array (ortho c) xva in
  let! bd := correlate rt E orth trunc in
  let! bb := correlate rt E E trunc in
  if second_order then
    let! db := correlate rt dE orth trunc in
    let! dd := correlate rt dE E trunc in
    Ok (Corrs bb bd db (Some dd))
  else
    let! d0 := tdot (dEk m) (ortho c) weight xva in
    Ok (Corrs bb bd [:: d0] None).

(** Weighted accumulation of the four arrays. *)
Definition scale_corrs k (a : R) (c : corrs_data R k o) : corrs_data R k o :=
  Corrs (scaleseq a (bkbk c)) (scaleseq a (bkdx c)) (scaleseq a (dotbkdx c))
        (omap (scaleseq a) (dotbkbk c)).

Definition add_corrs k (c c' : corrs_data R k o) : res (corrs_data R k o) :=
  let! bb := addseq (bkbk c) (bkbk c') in
  let! bd := addseq (bkdx c) (bkdx c') in
  let! db := addseq (dotbkdx c) (dotbkdx c') in
  match dotbkbk c, dotbkbk c' with
  | Some x, Some y => let! dd := addseq x y in Ok (Corrs bb bd db (Some dd))
  | None, None => Ok (Corrs bb bd db None)
  | _, _ => Err ShapeMismatch
  end.

(** Projection on the range of the kernel basis (gle_estimation.py:274-285). *)
Definition project_corrs k r (P : 'M[R]_(r, k)) (c : corrs_data R k o) : corrs_data R r o :=
  Corrs [seq P *m B *m P^T | B <- bkbk c] [seq P *m D | D <- bkdx c]
        [seq P *m D | D <- dotbkdx c]
        (omap (map (fun B => P *m B *m P^T)) (dotbkbk c)).

Definition compute_corrs (rt : corr_routine) (second_order : bool) (trunc : nat)
    (force_coeff : option 'M[R]_(mf m, o)) (trajs : seq (seq smp)) : res (corrs_data R (mk m) o) :=
  if force_coeff is Some c then
    loop_over_trajs (@scale_corrs (mk m)) (@add_corrs (mk m)) size
      (correlation_ufunc rt second_order trunc c) trajs
  else Err Documented.

End Corrs.
