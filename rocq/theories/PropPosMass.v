(** * Property C65: position-dependent inverse mass; kernel Gram matrix of C21. *)
From mathcomp Require Import all_ssreflect all_algebra.
From Verif Require Import Base FKernel Model Estimator Evaluate PosMass EstimatorSpec EstimatorProofs PosMassProofs.
Set Implicit Arguments.
Unset Strict Implicit.
Unset Printing Implicit Defensive.
Import GRing.Theory Num.Theory.
Local Open Scope ring_scope.

(** ** C21, for the kernel basis *)
Theorem C21_gram_kernel (R : realFieldType) (dx o q x : nat) (kb : sample R dx o -> 'M[R]_(q, x)) trajs :
  all_nonempty trajs -> compute_gram_kernel kb trajs = Ok (kb_gram kb (flatten trajs)).
Proof. exact: gram_kernel_pooled. Qed.
Print Assumptions C21_gram_kernel.

Theorem C21_gram_kernel_empty (R : realFieldType) (dx o q x : nat) (kb : sample R dx o -> 'M[R]_(q, x)) trajs :
  ~~ all_nonempty trajs -> exists e, compute_gram_kernel kb trajs = Err e.
Proof. exact: gram_kernel_fails. Qed.
Print Assumptions C21_gram_kernel_empty.

(** ** C65 (false but for position-only classes in one dimension, finding F56) *)
Theorem C65_least_squares_partial (R : realFieldType) (dx o q : nat)
    (kb : sample R dx o -> 'M[R]_(q, dx)) trajs c :
  compute_pos_effective_mass kb trajs = Ok c ->
  (forall c', vv_error kb c (flatten trajs) <= vv_error kb c' (flatten trajs)) /\
  (forall c', vv_error kb c' (flatten trajs) = vv_error kb c (flatten trajs) -> c' = c).
Proof. exact: pos_mass_lsq. Qed.
Print Assumptions C65_least_squares_partial.

Theorem C65_success (R : realFieldType) (dx o q : nat) (kb : sample R dx o -> 'M[R]_(q, dx)) trajs :
  (exists c, compute_pos_effective_mass kb trajs = Ok c) <->
  (all_nonempty trajs /\ kb_gram kb (flatten trajs) \in unitmx).
Proof. exact: pos_mass_success. Qed.
Print Assumptions C65_success.

Theorem C65_one_dimension_partial (R : realFieldType) (o N : nat)
    (val : 'rV[R]_1 -> 'rV[R]_N) (der : 'rV[R]_1 -> 'M[R]_(N, 1)) (m : model_fns R 1 o) trajs c xs :
  m = Pos_gle_overdamped o val der false \/ m = Pos_gle_overdamped o val der true \/
  m = Pos_gle_hybrid o val der ->
  compute_pos_effective_mass (expanded (o := o) val) trajs = Ok c ->
  [/\ forall c', v2_error val c (flatten trajs) <= v2_error val c' (flatten trajs),
      forall c', v2_error val c' (flatten trajs) = v2_error val c (flatten trajs) -> c' = c
    & inv_mass_eval m (Some c) xs = Ok [seq val (s_x s) *m c | s <- xs]].
Proof. exact: one_dim_lsq. Qed.
Print Assumptions C65_one_dimension_partial.

Theorem C65_recovers_partial (R : realFieldType) (o N : nat) (val : 'rV[R]_1 -> 'rV[R]_N)
    (trajs : seq (seq (sample R 1 o))) c (c0 : 'cV[R]_N) :
  compute_pos_effective_mass (expanded (o := o) val) trajs = Ok c ->
  (forall s, List.In s (flatten trajs) -> s_v s 0 0 ^+ 2 = (val (s_x s) *m c0) 0 0) -> c = c0.
Proof. exact: one_dim_recovers. Qed.
Print Assumptions C65_recovers_partial.

(** The hypotheses: two samples with [v^2 = x], fitted on the function [x]. *)
Example C65_example (R : realFieldType) :
  compute_pos_effective_mass (expanded (o := 1) id) (root_traj R) = Ok 1%:M.
Proof. exact: root_traj_ok. Qed.

(** From two dimensions on one row per point comes back, and not a row of [v v^T]. *)
Theorem C65_two_dimensions_refuted (R : realFieldType) :
  exists c a, compute_pos_effective_mass (expanded (o := 2) (@one_fct R)) (one_sample R) = Ok c /\
  inv_mass_eval (Pos_gle_overdamped 2 (@one_fct R) (fun=> 0) false) (Some c) (flatten (one_sample R)) = Ok [:: a] /\
  forall i, a <> row i ((e0 R)^T *m e0 R).
Proof. exact: two_dim_refuted. Qed.
Print Assumptions C65_two_dimensions_refuted.

(** Pos_gle evaluates with the values of the basis what was fitted with its gradients. *)
Theorem C65_pos_gle_refuted (R : realFieldType) :
  exists c (c0 : 'cV[R]_1),
    (forall s, List.In s (flatten (at_two R)) -> s_v s 0 0 ^+ 2 = (s_x s *m c0) 0 0) /\
    compute_pos_effective_mass (Kb (Pos_gle 1 (id_basis R))) (at_two R) = Ok c /\
    inv_mass_eval (Pos_gle 1 (id_basis R)) (Some c) (flatten (at_two R))
    <> Ok [seq s_x s *m c0 | s <- flatten (at_two R)].
Proof. exact: pos_gle_values_refuted. Qed.
Print Assumptions C65_pos_gle_refuted.

(** With a constant among the basis functions there is never a value: when it is removed
    from the gradients the widths differ, when it is kept the matrix is singular. *)
Theorem C65_pos_gle_constant_removed (R : realFieldType) (dx o : nat) (b : basis_fns R dx)
    (c : 'M[R]_(nderiv b, dx)) xs :
  nderiv b <> nbasis b -> inv_mass_eval (Pos_gle o b) (Some c) xs = Err ValueError.
Proof. exact: pos_gle_const_removed. Qed.
Print Assumptions C65_pos_gle_constant_removed.

Theorem C65_pos_gle_constant_kept (R : realFieldType) (dx o : nat) (b : basis_fns R dx)
    (trajs : seq (seq (sample R dx o))) (u : 'rV[R]_(nderiv b)) :
  all_nonempty trajs -> u != 0 -> (forall x, u *m bderiv b x = 0) ->
  compute_pos_effective_mass (Kb (Pos_gle o b)) trajs = Err Singular.
Proof. by move=> ne u0 z; apply: (const_singular ne u0) => s; apply: z. Qed.
Print Assumptions C65_pos_gle_constant_kept.

(** pmf_num_int_eval takes the element (0, 0) of arrays that have one axis too few. *)
Theorem C65_pmf_num_int_refuted (R : realFieldType) (dx o q : nat) (m : model_fns R dx o)
    (c : option 'M[R]_(q, dx)) xs a : inv_mass_00 m c xs <> Ok a.
Proof. exact: inv_mass_00_fails. Qed.
Print Assumptions C65_pmf_num_int_refuted.
