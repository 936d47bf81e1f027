(** * Correlations with the noise averaged over the trajectories:
    gle_estimation.py:165-176, 373-377, 497-501 and models.py:171-207.

    [left_op]: nothing (the observable minus the mean force), a function of the trajectory (a
    callable, or the name of one of its variables), or an array used for every trajectory.
    Other values of [left_op] leave a variable unbound and are not modelled. *)
From mathcomp Require Import all_ssreflect all_algebra.
From Verif Require Import Base Model Estimator.
Set Implicit Arguments.
Unset Strict Implicit.
Unset Printing Implicit Defensive.
Import GRing.Theory.
Local Open Scope ring_scope.

Section ProjCorrs.
Variables (R : realFieldType) (dx o : nat) (m : model_fns R dx o).
Local Notation smp := (sample R dx o).

Inductive left_op : nat -> Type :=
  | LNone : left_op o
  | LFun q : (seq smp -> seq 'rV[R]_q) -> left_op q
  | LArray q : seq 'rV[R]_q -> left_op q.

(** models.py:190-199 *)
Definition left_data (c : 'M[R]_(mf m, o)) (xva : seq smp) q (l : left_op q) : seq 'rV[R]_q :=
  match l with
  | LNone => [seq s_obs s - Ef m s *m c | s <- xva]
  | LFun _ f => f xva
  | LArray _ a => a
  end.

Variable (d : nat).
Variable proj : smp -> 'rV[R]_d.

(** One trajectory, gle_estimation.py:497-501.  Without a mean force the call fails before
    [left_op] is looked at. *)
Definition corrs_one (force : option 'M[R]_(mf m, o)) (kernel : option (seq R * seq 'M[R]_(d, o)))
    (mt : option volterra_method) q (l : left_op q) (xva : seq smp) : res (seq R * seq 'M[R]_(q, o)) :=
  compute_corrs_w_noise (m := m) proj force kernel mt xva
    (if force is Some c then left_data c xva l else [::]).

(** The two results are scaled and added apart (lines 171-175). *)
Definition scale_pair q (c : R) (x : seq R * seq 'M[R]_(q, o)) : seq R * seq 'M[R]_(q, o) :=
  ([seq c * a | a <- x.1], scaleseq c x.2).
Definition add_pair q (x y : seq R * seq 'M[R]_(q, o)) : res (seq R * seq 'M[R]_(q, o)) :=
  let! a := addseq x.1 y.1 in let! b := addseq x.2 y.2 in Ok (a, b).

(** Lines 373-377 *)
Definition compute_projected_corrs force kernel mt q (l : left_op q) (trajs : seq (seq smp)) :=
  loop_over_trajs (@scale_pair q) (@add_pair q) size (fun _ t => corrs_one force kernel mt l t) trajs.

End ProjCorrs.
