(** * Properties C34, C35: smooth indicator features. *)
From Coq Require Import Reals Lra.
From Coquelicot Require Import Coquelicot.
From mathcomp Require Import all_ssreflect.
From Verif Require Import Base Colored Indicator IndicatorProofs IndicatorMain.
Set Implicit Arguments.
Unset Strict Implicit.
Unset Printing Implicit Defensive.
Local Open Scope R_scope.

(** C34. Partition of unity, for any number of states (two at least when periodic) and any
    interpolating function going from 1 to 0 within [0, 1], in particular the three named ones. *)
Theorem C34_unity_partial B bs periodic x : from1to0 B -> ordered bs -> size_ok bs periodic ->
  exists2 f, ind_basis B bs periodic x = Ok f &
  [/\ size f = n_features (size bs) periodic,
      forall j, (j < size f)%N -> 0 <= nth 0 f j <= 1 &
      rsum (size f) (nth 0 f) = 1].
Proof. exact: unity. Qed.
Theorem C34_named t B : boundary_of t = Ok B -> from1to0 B.
Proof. by move=> /boundary_ok []. Qed.
(** Each column is 1 on its own state, so 0 on the others. *)
Theorem C34_states_partial B bs periodic n x : from1to0 B -> ordered bs -> size_ok bs periodic -> in_state bs n x ->
  exists2 f, ind_basis B bs periodic x = Ok f & nth 0 f (state_column bs periodic n) = 1.
Proof. exact: state_one. Qed.
(** The full statement is false for one periodic state. *)
Theorem C34_one_periodic_refuted : exists bs x f, ordered bs /\ (0 < size bs)%N /\
  ind_basis quartic bs true x = Ok f /\ rsum (size f) (nth 0 f) <> 1.
Proof.
exists one_state, (1 / 2), [:: 7 / 16]; split; first exact: one_ordered.
split=> //; split; first exact: one_periodic_half.
by rewrite /=; lra.
Qed.
Print Assumptions C34_unity_partial.
Print Assumptions C34_named.
Print Assumptions C34_states_partial.
Print Assumptions C34_one_periodic_refuted.
(** Two states, the second given upper end first; periodic or not. *)
Example C34_example : ordered two_states /\ size_ok two_states true /\ size_ok two_states false.
Proof. by split; [exact: two_ordered | ]. Qed.
Example C34_state_example : in_state two_states 1 (3 / 2).
Proof.
split=> //; split; case=> [|[|//]] // _; rewrite /upper /lower /= ?Rmax_right ?Rmin_right; lra.
Qed.

(** C35. [deriv] is the derivative of [basis] at every point, and sums to zero. *)
Theorem C35_derivative_partial B bs periodic : from1to0 B -> differentiable1 B -> ordered bs -> size_ok bs periodic ->
  exists F D, (forall x, ind_basis B bs periodic x = Ok (F x)) /\
    (forall x, ind_deriv B bs periodic 1 x = Ok (D x)) /\
    forall x, [/\ size (D x) = n_features (size bs) periodic,
      forall j, (j < n_features (size bs) periodic)%N -> is_derive (fun y => nth 0 (F y) j) x (nth 0 (D x) j) &
      rsum (size (D x)) (nth 0 (D x)) = 0].
Proof. exact: derivative. Qed.
Theorem C35_named t B : boundary_of t = Ok B -> from1to0 B /\ differentiable1 B /\ differentiable2 B.
Proof. exact: boundary_ok. Qed.
(** [hessian] is the derivative of [deriv] away from the ends of the transition regions... *)
Theorem C35_hessian B bs periodic x : differentiable1 B -> differentiable2 B -> ordered bs -> size_ok bs periodic ->
  (forall n, (n < size bs)%N -> x <> lower (nth (0, 0) bs n) /\ x <> upper (nth (0, 0) bs n)) ->
  exists D h, (forall y, ind_deriv B bs periodic 1 y = Ok (D y)) /\ ind_hessian B bs periodic x = Ok h /\
    [/\ size h = n_features (size bs) periodic,
      forall j, (j < n_features (size bs) periodic)%N -> is_derive (fun y => nth 0 (D y) j) x (nth 0 h j) &
      rsum (size h) (nth 0 h) = 0].
Proof. by move=> h1 h2 o ok aw; apply: second_derivative => //; exact: away_point. Qed.
(** ... and everywhere for the default function. *)
Theorem C35_hessian_tricube bs periodic x : ordered bs -> size_ok bs periodic ->
  exists D h, (forall y, ind_deriv tricube bs periodic 1 y = Ok (D y)) /\ ind_hessian tricube bs periodic x = Ok h /\
    [/\ size h = n_features (size bs) periodic,
      forall j, (j < n_features (size bs) periodic)%N -> is_derive (fun y => nth 0 (D y) j) x (nth 0 h j) &
      rsum (size h) (nth 0 h) = 0].
Proof.
have [_ [h1 h2]] := tricube_ok.
by move=> o ok; apply: second_derivative => //; exact: tricube_point.
Qed.
(** For one periodic state the feature has no derivative at the start of the transition. *)
Theorem C35_one_periodic_refuted : exists bs x, ordered bs /\ (0 < size bs)%N /\
  forall l, ~ is_derive (fun y => if ind_basis quartic bs true y is Ok f then nth 0 f 0 else 0) x l.
Proof. by exists one_state, 0; split; [exact: one_ordered | split=> //; exact: one_periodic_jump]. Qed.
Print Assumptions C35_derivative_partial.
Print Assumptions C35_named.
Print Assumptions C35_hessian.
Print Assumptions C35_hessian_tricube.
Print Assumptions C35_one_periodic_refuted.
Example C35_example : ordered two_states /\ size_ok two_states true /\
  forall n, (n < size two_states)%N -> 1 / 2 <> lower (nth (0, 0) two_states n) /\ 1 / 2 <> upper (nth (0, 0) two_states n).
Proof.
split; [exact: two_ordered | split=> //].
by case=> [|[|//]] _; rewrite /lower /upper /= /Rmin /Rmax; case: Rle_dec; lra.
Qed.
