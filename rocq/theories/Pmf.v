(** * Free energy: VolterraBasis/models.py:224-246 and 514-540, 694-717.

    Over Coq's real numbers.  [A] is the antiderivative of the basis at a point ([n] columns),
    [coeffs k m] the force coefficients used: all of them, or the first [N_basis_elt] in the class
    with friction.  [None] for the mass is [eff_mass] not computed.  A division by [kT = 0] is
    [Err ZeroDivision]. *)
From Coq Require Import Reals.
From mathcomp Require Import all_ssreflect.
From Verif Require Import Base Colored Basis BasisVector.
Set Implicit Arguments.
Unset Strict Implicit.
Unset Printing Implicit Defensive.
Local Open Scope R_scope.

Definition matrix := nat -> nat -> R.
(** [xr.dot(E, coeffs)], [@], [np.identity]. *)
Definition dot_coeffs (n : nat) (E : tens) (c : matrix) (m : nat) : R := rsum n (fun k => E [:: k] * c k m).
Definition matvec (n : nat) (u : nat -> R) (M : matrix) (l : nat) : R := rsum n (fun m => u m * M m l).
Definition identity : matrix := fun m l => if m == l then 1 else 0.

(** force_eval, models.py:209-222. *)
Definition force_eval (n : nat) (b : point -> tens) (c : matrix) (x : point) (l : nat) : R := dot_coeffs n (b x) c l.

(** [np.min] of all the entries. *)
Definition np_min (rows : seq (seq R)) : res R :=
  if flatten rows is y :: ys then Ok (foldl Rmin y ys) else Err ValueError.
Definition subtract (z : R) (rows : seq (seq R)) : seq (seq R) := map (map (fun y => y - z)) rows.
Definition float_of (b : bool) : R := if b then 1 else 0.

Section Pmf.
Variables (n dim_x dim_obs : nat) (A : point -> tens) (c : matrix) (kT : R).
(** Line 245: [-1 * xr.dot(E, coeffs).values @ eff_mass / kT], one row per point; [mr] and [mc] are
    the shape of the mass matrix. *)
Definition pmf_rows (mc : nat) (mass : matrix) (xs : seq point) : seq (seq R) :=
  map (fun x => mkseq (fun l => matvec dim_obs (fun m => -1 * dot_coeffs n (A x) c m) mass l / kT) mc) xs.
Definition zeroed (set_zero : bool) (rows : seq (seq R)) : res (seq (seq R)) :=
  let! z := np_min rows in Ok (subtract (float_of set_zero * z) rows).
Definition pmf_eval (eff_mass : option (nat * nat * matrix)) (xs : seq point) (set_zero : bool) : res (seq (seq R)) :=
  let '(mr, mc, mass) := odflt (dim_x, dim_x, identity) eff_mass in
  if dim_obs != mr then Err ValueError
  else if Req_EM_T kT 0 then Err ZeroDivision
  else zeroed set_zero (pmf_rows mc mass xs).
(** The overdamped class, lines 694-717: no mass. *)
Definition pmf_eval_overdamped (xs : seq point) (set_zero : bool) : res (seq (seq R)) :=
  if Req_EM_T kT 0 then Err ZeroDivision
  else zeroed set_zero (map (fun x => mkseq (fun l => -1 * dot_coeffs n (A x) c l / kT) dim_obs) xs).
End Pmf.

(** ** Numerical integration, models.py:264-278: [force] and [inv_mass] at the points of a grid *)
(** [np.gradient(f)], unit spacing, two points or more. *)
Definition np_gradient (f : seq R) (i : nat) : R :=
  if i == 0%N then nth 0 f 1 - nth 0 f 0
  else if i == (size f).-1 then nth 0 f i - nth 0 f i.-1
  else (nth 0 f i.+1 - nth 0 f i.-1) / 2.
Definition grad_pmf (force inv_mass diff_mass kT : R) : R := -1 * (force - diff_mass / kT) / inv_mass.
Definition cumsum (f : seq R) : seq R := mkseq (fun i => rsum i.+1 (fun j => nth 0 f j)) (size f).
Definition pmf_num_int (kT : R) (force inv_mass x : seq R) (set_zero : bool) : res (seq R) :=
  if (size x < 2)%N then Err OutOfBounds
  else
    let dx := nth 0 x 1 - nth 0 x 0 in
    if Req_EM_T dx 0 then Err ZeroDivision
    else if Req_EM_T kT 0 then Err ZeroDivision
    else if has (fun m => if Req_EM_T m 0 then true else false) inv_mass then Err ZeroDivision
    else
    let diff_mass := mkseq (fun i => np_gradient inv_mass i / dx) (size inv_mass) in
    let grad := mkseq (fun i => grad_pmf (nth 0 force i) (nth 0 inv_mass i) (nth 0 diff_mass i) kT) (size inv_mass) in
    let pmf := map (fun s => s * dx) (cumsum grad) in
    if pmf is y :: ys then Ok (map (fun s => s - float_of set_zero * foldl Rmin y ys) pmf) else Err ValueError.
