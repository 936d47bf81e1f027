(** * Specification of the Volterra inversion: discretised integral equations.

    Stated with the textbook quadrature rules; [B`_i] is the sample at lag [i]. *)
From mathcomp Require Import all_ssreflect all_algebra.
From Verif Require Import Quadrature.
Set Implicit Arguments.
Unset Strict Implicit.
Unset Printing Implicit Defensive.
Import GRing.Theory.
Local Open Scope ring_scope.

Section Spec.
Variables (R : realFieldType) (d m : nat).
Implicit Types (dt : R) (B Bdot : seq 'M[R]_d) (D Ddot K : seq 'M[R]_(d, m)).

(** [int_0^{t_i} B(t_i - s) K(s) ds = - D(t_i)] with left rectangles, at every
    positive lag [i]. *)
Definition solves_rect dt B D K : Prop :=
  forall i, (0 < i < size B)%N ->
    rect_rule dt (fun j => B`_(i - j) *m K`_j) i = - D`_i.

(** Same with the trapezoid rule. *)
Definition solves_trapz dt B D K : Prop :=
  forall i, (0 < i < size B)%N ->
    trapz_rule dt (fun j => B`_(i - j) *m K`_j) i = - D`_i.

(** Same with the midpoint rule of step [2 dt]: the equation at the odd time
    [t = (2i+1) dt + dt] is collocated so that kernel sample [j] is multiplied by the
    correlation at lag [2(i-j)+1]. *)
Definition solves_midpoint dt B D K : Prop :=
  forall i, (2 * i + 1 < size B)%N ->
    midpoint_rule (2 * dt) (fun j => B`_(2 * (i - j) + 1) *m K`_j) i.+1
    = - D`_(2 * i + 1).

(** Same with Simpson's rule. *)
Definition solves_simpson dt B D K : Prop :=
  forall i, (0 < i < size B)%N ->
    simpson_rule dt (fun j => B`_(i - j) *m K`_j) i = - D`_i.

(** Second kind: [B(0) K(t_i) = int_0^{t_i} B'(t_i - s) K(s) ds + D'(t_i)]. *)
Definition solves2_rect dt (B0 : 'M[R]_d) Bdot Ddot K : Prop :=
  forall i, (0 < i < size Bdot)%N ->
    B0 *m K`_i = rect_rule dt (fun j => Bdot`_(i - j) *m K`_j) i + Ddot`_i.

Definition solves2_trapz dt (B0 : 'M[R]_d) Bdot Ddot K : Prop :=
  forall i, (0 < i < size Bdot)%N ->
    B0 *m K`_i = trapz_rule dt (fun j => Bdot`_(i - j) *m K`_j) i + Ddot`_i.

Definition solves2_simpson dt (B0 : 'M[R]_d) Bdot Ddot K : Prop :=
  forall i, (0 < i < size Bdot)%N ->
    B0 *m K`_i = simpson_rule dt (fun j => Bdot`_(i - j) *m K`_j) i + Ddot`_i.

End Spec.
