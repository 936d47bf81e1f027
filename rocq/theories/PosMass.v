(** * Position-dependent inverse mass: evaluation of the coefficients computed by
    [compute_pos_effective_mass] (Estimator.v), models.py:248-266.

    [coeffs=None]: the stored coefficients, with axes ([dim_basis], [dim_x']), are used.
    Pos_gle_with_friction is excluded: its force basis needs a velocity that
    [_convert_input_array_for_evaluation] does not provide. *)
From mathcomp Require Import all_ssreflect all_algebra.
From Verif Require Import Base Model Estimator Evaluate.
Set Implicit Arguments.
Unset Strict Implicit.
Unset Printing Implicit Defensive.
Import GRing.Theory.
Local Open Scope ring_scope.

Section PosMass.
Variables (R : realFieldType) (dx o : nat).
Local Notation smp := (sample R dx o).

(** models.py:248-262: [xr.dot(E, coeffs)], one row per point. *)
Definition inv_mass_eval (m : model_fns R dx o) q (coeffs : option 'M[R]_(q, dx)) (xs : seq smp)
    : res (seq 'rV[R]_dx) :=
  if coeffs is Some c then
    let! _ := guard (q == mf m) ValueError in
    Ok [seq \row_k \sum_(b < mf m) Ef m s 0 b * row_at c b 0 k | s <- xs]
  else Err Documented.

(** models.py:270 [inv_mass_eval(x)[:, 0, 0]]: the array has two axes. *)
Definition inv_mass_00 (m : model_fns R dx o) q (coeffs : option 'M[R]_(q, dx)) (xs : seq smp)
    : res (seq R) :=
  let! a := inv_mass_eval m coeffs xs in
  let shape := [:: size a; dx] in
  let! _ := guard (3 <= size shape)%N OutOfBounds in
  Ok [seq row_at (r : 'rV[R]_dx)^T 0 0 0 | r <- a].

End PosMass.
