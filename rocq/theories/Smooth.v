(** * Derivatives over an ordered field, used to state that [dE] is the time
    derivative of [E].  No library of analysis is used: the definitions are the
    textbook ones, with the little-o form of differentiability. *)
From mathcomp Require Import all_ssreflect all_algebra.
From Verif Require Import Base Model.
Set Implicit Arguments.
Unset Strict Implicit.
Unset Printing Implicit Defensive.
Import Order.TTheory GRing.Theory Num.Theory.
Local Open Scope ring_scope.

Section Deriv.
Variable R : realFieldType.

(** [f] has derivative [l] at [t]. *)
Definition has_derivative (f : R -> R) (t l : R) : Prop :=
  forall e, 0 < e -> exists2 d, 0 < d &
    forall s, `|s - t| < d -> `|f s - f t - l * (s - t)| <= e * `|s - t|.

(** [g] is differentiable at [x] with partial derivatives [G]. *)
Definition has_gradient n (g : 'rV[R]_n -> R) (x : 'rV[R]_n) (G : 'I_n -> R) : Prop :=
  forall e, 0 < e -> exists2 d, 0 < d &
    forall y : 'rV[R]_n, (forall j, `|y 0 j - x 0 j| < d) ->
      `|g y - g x - \sum_j G j * (y 0 j - x 0 j)| <= e * \sum_j `|y 0 j - x 0 j|.

End Deriv.

Section Traj.
Variables (R : realFieldType) (dx o : nat).

(** A smooth trajectory: the sample at every time, [v] the derivative of [x] and
    [a] the derivative of [v] at time [t]. *)
Definition smooth_at (traj : R -> sample R dx o) (t : R) : Prop :=
  (forall j, has_derivative (fun s => s_x (traj s) 0 j) t (s_v (traj t) 0 j)) /\
  (forall j, has_derivative (fun s => s_v (traj s) 0 j) t (s_a (traj t) 0 j)).

(** The arrays returned by [deriv] and [hessian] are the derivatives of the previous ones. *)
Definition hessian_correct (b : basis_fns R dx) (x : 'rV[R]_dx) : Prop :=
  forall k i, has_gradient (fun y => bderiv b y k i) x (fun j => @bhess R dx b x k i j).
Definition deriv_correct N (val : 'rV[R]_dx -> 'rV[R]_N) (der : 'rV[R]_dx -> 'M[R]_(N, dx)) (x : 'rV[R]_dx) : Prop :=
  forall k, has_gradient (fun y => val y 0 k) x (fun j => der x k j).

(** [dE] is the time derivative of [E]. *)
Definition dE_is_derivative (m : model_fns R dx o) (traj : R -> sample R dx o) (t : R) : Prop :=
  forall k, has_derivative (fun s => Ek m (traj s) 0 k) t (dEk m (traj t) 0 k).

End Traj.
