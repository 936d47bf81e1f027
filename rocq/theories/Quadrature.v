(** * Specification vocabulary: textbook quadrature rules.

    Independent of the model.  [f j] is the integrand at the [j]-th grid point,
    [n] the number of panels, [h] the step. *)
From mathcomp Require Import all_ssreflect all_algebra.
Set Implicit Arguments.
Unset Strict Implicit.
Unset Printing Implicit Defensive.
Import GRing.Theory.
Local Open Scope ring_scope.

Section Quadrature.
Variables (R : realFieldType) (V : lmodType R).
Implicit Types (h : R) (f : nat -> V) (n : nat).

(** Left rectangles: h (f_0 + ... + f_{n-1}). *)
Definition rect_rule h f n : V := h *: \sum_(j < n) f j.

(** Composite trapezoid: h (f_0/2 + f_1 + ... + f_{n-1} + f_n/2); nothing for
    [n = 0] panels. *)
Definition trapz_rule h f n : V :=
  h *: \sum_(j < n) 2^-1 *: (f j + f j.+1).

(** Midpoint rule over [n] panels, [g j] being the integrand at the centre of the
    [j]-th panel. *)
Definition midpoint_rule h (g : nat -> V) n : V := h *: \sum_(j < n) g j.

(** Composite Simpson rule over [n] panels, [n] even. *)
Definition simpson_even h f n : V :=
  (h / 3%:R) *: \sum_(j < n./2) (f j.*2 + 4%:R *: f j.*2.+1 + f j.*2.+2).

(** For [n] odd, a trapezoid on the first panel and Simpson on the rest. *)
Definition simpson_rule h f n : V :=
  if odd n then (h / 2) *: (f 0%N + f 1%N) + simpson_even h (fun j => f j.+1) n.-1
  else simpson_even h f n.

End Quadrature.
