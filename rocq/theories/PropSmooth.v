(** * Property C32 for the model used by the estimator (Model.v), without axioms: the array [dE] is the time derivative of the kernel basis [E]. *)
From mathcomp Require Import all_ssreflect all_algebra.
From Verif Require Import Base Tactics Model Smooth SmoothProofs.
Set Implicit Arguments.
Unset Strict Implicit.
Unset Printing Implicit Defensive.
Import Order.TTheory GRing.Theory Num.Theory.
Local Open Scope ring_scope.

(** ** C32 *)
Theorem C32_model_position_velocity (R : realFieldType) (dx o : nat) (b : basis_fns R dx)
    (traj : R -> sample R dx o) (t : R) :
  smooth_at traj t -> hessian_correct b (s_x (traj t)) ->
  dE_is_derivative (Pos_gle o b) traj t /\ dE_is_derivative (Pos_gle_with_friction o b) traj t.
Proof. exact: dE_pos_gle. Qed.
Print Assumptions C32_model_position_velocity.

Theorem C32_model_const_kernel (R : realFieldType) (dx o : nat) (b : basis_fns R dx)
    (traj : R -> sample R dx o) (t : R) :
  smooth_at traj t -> dE_is_derivative (Pos_gle_const_kernel o b) traj t.
Proof. exact: dE_const_kernel. Qed.
Print Assumptions C32_model_const_kernel.

Theorem C32_model_position_only (R : realFieldType) (dx o N : nat) (val : 'rV[R]_dx -> 'rV[R]_N) der rp
    (traj : R -> sample R dx o) (t : R) :
  smooth_at traj t -> deriv_correct val der (s_x (traj t)) ->
  dE_is_derivative (Pos_gle_overdamped o val der rp) traj t
  /\ dE_is_derivative (Pos_gle_no_vel_basis o val der) traj t.
Proof. exact: dE_overdamped. Qed.
Print Assumptions C32_model_position_only.

Theorem C32_model_hybrid (R : realFieldType) (dx o N : nat) (val : 'rV[R]_dx -> 'rV[R]_N) der
    (traj : R -> sample R dx o) (t : R) :
  smooth_at traj t -> deriv_correct val der (s_x (traj t)) ->
  dE_is_derivative (Pos_gle_hybrid o val der) traj t.
Proof. exact: dE_hybrid. Qed.
Print Assumptions C32_model_hybrid.

(** The square of the position along [x = t^2]. *)
Section Example32.
Variable R : realFieldType.
Add Field RF32 : (mc_field_theory R).
Local Ltac rng := fold_ring (Num.RealField.fieldType R); ring.

Definition square_basis : basis_fns R 1 :=
  {| nbasis := 1; nderiv := 1; const_removed := false;
     bval := fun x => \row_k x 0 0 ^+ 2; bderiv := fun x => \matrix_(k, j) (2%:R * x 0 0);
     bhess := fun _ _ => \matrix_(i, j) 2%:R |}.

Definition parabola (t : R) : sample R 1 1 :=
  (t, const_mx (t ^+ 2), const_mx (2%:R * t), const_mx 2%:R, 0).

Lemma square_little_o (x y e : R) : `|y - x| < e -> `|y ^+ 2 - x ^+ 2 - 2%:R * x * (y - x)| <= e * `|y - x|.
Proof.
move=> H; have -> : y ^+ 2 - x ^+ 2 - 2%:R * x * (y - x) = (y - x) * (y - x) by rng.
by rewrite normrM; apply: ler_wpmul2r => //; apply: ltW.
Qed.

Example C32_model_example (t : R) :
  smooth_at parabola t /\ hessian_correct square_basis (s_x (parabola t)) /\
  deriv_correct (bval square_basis) (bderiv square_basis) (s_x (parabola t)).
Proof.
split; last split.
- split=> j e e0.
    by exists e => // s; rewrite /s_x /s_v /= !mxE; apply: square_little_o.
  exists 1; first exact: ltr01.
  move=> s _; rewrite /s_v /s_a /= !mxE -mulrBr subrr normr0 mulr_ge0 ?normr_ge0 //; exact: ltW.
- move=> k i e e0; exists 1; first exact: ltr01.
  move=> y _ /=; rewrite !big_ord1 !mxE -mulrBr subrr normr0 mulr_ge0 ?normr_ge0 //; exact: ltW.
- move=> k e e0; exists e => // y /(_ ord0) H /=; rewrite !big_ord1 !mxE.
  by move: H; rewrite !mxE; apply: square_little_o.
Qed.
End Example32.
