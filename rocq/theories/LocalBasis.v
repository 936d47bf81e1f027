(** * Spline bases: VolterraBasis/basis/_local_features.py:26-92, _basis_features.py:194-228.

    One sample, as in Basis.v.  The splines of scipy are a parameter: [sev n d t] is
    [splev(t, spline_n, der=d)] and [santi n m t] the value of its [m]-th antiderivative
    ([splantider]); what is assumed of them is stated in each theorem. *)
From Coq Require Import Reals.
From mathcomp Require Import all_ssreflect.
From Verif Require Import Base Basis BasisVector.
Set Implicit Arguments.
Unset Strict Implicit.
Unset Printing Implicit Defensive.
Local Open Scope R_scope.

Record splines := Splines { sev : nat -> nat -> R -> R; santi : nat -> nat -> R -> R }.

(** ** BSplineFeatures; [ns] is the number of splines, [k] their degree *)
(** Lines 61-68.  The assignment of a slice is that of its entries. *)
Definition bspl_basis (sp : splines) (ns dim : nat) (x : point) : tens :=
  loop 0 ns (fun n f =>
    let istart := (n * dim)%N in
    loop 0 dim (fun i f => tset f [:: (istart + i)%N] (sev sp n 0 (x i))) f) zeros.
(** Lines 70-80: with the constant removed, the last spline is left out. *)
Definition bspl_deriv (sp : splines) (k ns dim : nat) (const_removed : bool) (order : nat) (x : point) : tens :=
  let with_const := bint const_removed in
  if (k < order)%N then zeros
  else loop 0 (ns - with_const) (fun n f =>
    let istart := (n * dim)%N in
    loop 0 dim (fun i f => tset f ((istart + i)%N :: nseq order i) (sev sp n order (x i))) f) zeros.
Definition bspl_hessian sp k ns dim rc x := bspl_deriv sp k ns dim rc 2 x.
(** Lines 85-92. *)
Definition bspl_antiderivative (sp : splines) (ns dim order : nat) (x : point) : tens :=
  loop 0 ns (fun n f =>
    let istart := (n * dim)%N in
    loop 0 dim (fun i f => tset f [:: (istart + i)%N] (santi sp n order (x i))) f) zeros.
Definition bspl_obj (sp : splines) (k ns dim : nat) (remove_const : bool) : obj :=
  Obj remove_const (fun x => ((ns * dim)%N, bspl_basis sp ns dim x))
    (fun rc x => ((dim * (ns - bint rc))%N, bspl_deriv sp k ns dim rc 1 x))
    (fun rc x => ((dim * (ns - bint rc))%N, bspl_hessian sp k ns dim rc x)).

(** ** SplineFctFeatures: one spline [sev sp 0], of degree [k], applied to every coordinate *)
(** [self.spl_(X)], elementwise. *)
Definition spl_basis (sp : splines) (x : point) : tens := fun idx => sev sp 0 0 (x (head 0%N idx)).
(** scipy refuses derivatives of order above the degree. *)
Definition spl_deriv (sp : splines) (k dim order : nat) (x : point) : res tens :=
  if (0 < dim)%N && (k < order)%N then Err ValueError
  else Ok (loop 0 dim (fun i f => tset f (i :: nseq order i) (sev sp 0 order (x i))) zeros).
Definition spl_hessian sp k dim x := spl_deriv sp k dim 2 x.
Definition spl_antiderivative (sp : splines) (order : nat) (x : point) : tens :=
  fun idx => santi sp 0 order (x (head 0%N idx)).
