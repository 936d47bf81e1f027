(** * Global basis functions: VolterraBasis/basis/_basis_features.py:13-191.

    Over Coq's real numbers.  The classes treat the rows of [X] (the samples) separately and
    alike, so one row is modelled: a point is [x : nat -> R], of which the first [dim]
    coordinates are used.  An array for one sample is a function of the list of its indices;
    the declared shapes are in Shapes.v.  Every array is filled by the loops of the code. *)
From Coq Require Import Reals.
From mathcomp Require Import all_ssreflect.
From Verif Require Import Base.
Set Implicit Arguments.
Unset Strict Implicit.
Unset Printing Implicit Defensive.
Local Open Scope R_scope.

Definition tens := seq nat -> R.
(** [np.zeros], assignment of one entry, [for n in range(lo, hi)]. *)
Definition zeros : tens := fun _ => 0.
Definition tset (a : tens) (idx : seq nat) (v : R) : tens := fun j => if j == idx then v else a j.
Definition loop S (lo hi : nat) (body : nat -> S -> S) (s : S) : S :=
  foldl (fun s n => body n s) s (iota lo (hi - lo)).

(** Booleans as numbers, [int(self.const_removed)]. *)
Definition bint (b : bool) : nat := if b then 1%N else 0%N.

(** ** LinearFeatures, lines 13-49. *)
(** Lines 28-31: the mean of the description when centred, zeros otherwise. *)
Definition lin_mean (centered : bool) (mean : nat -> R) : nat -> R := if centered then mean else fun _ => 0.
(** _data_describe.py:24-28, the description [load_model] fits an unfitted basis with (models.py:87-89). *)
Definition describe_from_dim_mean : nat -> R := fun _ => 0.
Definition lin_basis (dim : nat) (mean_ : nat -> R) (x : nat -> R) : tens :=
  loop 0 dim (fun i f => tset f [:: i] (x i - mean_ i)) zeros.
Definition lin_deriv (dim order : nat) (x : nat -> R) : tens :=
  if order == 1%N then loop 0 dim (fun i f => tset f [:: i; i] 1) zeros else zeros.
Definition lin_hessian (dim : nat) (x : nat -> R) : tens := lin_deriv dim 2 x.
Definition lin_antiderivative (dim order : nat) (x : nat -> R) : tens :=
  loop 0 dim (fun i f => tset f [:: i] (1 / 2 * x i ^ 2)) zeros.

(** ** PolynomialFeatures, lines 52-103.

    [P n] is [polynom.basis(n)], as the list of its coefficients on the powers of the variable,
    lowest first: numpy's classes are series of polynomials in a given family, their [deriv]
    and [integ] being the formal derivative and the integral vanishing at 0. *)
Fixpoint peval (p : seq R) (x : R) : R := if p is c :: q then c + x * peval q x else 0.
Definition pderiv1 (p : seq R) : seq R := mkseq (fun k => INR k.+1 * nth 0 p k.+1) (size p).-1.
Definition pinteg1 (p : seq R) : seq R := 0 :: mkseq (fun k => nth 0 p k / INR k.+1) (size p).
Definition pderiv (order : nat) (p : seq R) : seq R := iter order pderiv1 p.
Definition pinteg (order : nat) (p : seq R) : seq R := iter order pinteg1 p.
(** [np.polynomial.Polynomial.basis(n)], the default family. *)
Definition monomial (n : nat) : seq R := rcons (nseq n 0) 1.

(** [self.degree] is [deg + 1] (line 61). *)
Definition poly_basis (P : nat -> seq R) (deg dim : nat) (x : nat -> R) : tens :=
  loop 0 deg.+1 (fun n f =>
    loop 0 dim (fun i f => tset f [:: (n * dim + i)%N] (peval (P n) (x i))) f) zeros.
Definition poly_deriv (P : nat -> seq R) (deg dim : nat) (const_removed : bool) (order : nat)
  (x : nat -> R) : tens :=
  let with_const := bint const_removed in
  loop with_const deg.+1 (fun n f =>
    let istart := ((n - with_const) * dim)%N in
    loop 0 dim (fun i f =>
      tset f ((istart + i)%N :: nseq order i) (peval (pderiv order (P n)) (x i))) f) zeros.
Definition poly_hessian P deg dim const_removed x := poly_deriv P deg dim const_removed 2 x.
Definition poly_antiderivative (P : nat -> seq R) (deg dim order : nat) (x : nat -> R) : tens :=
  loop 0 deg.+1 (fun n f =>
    loop 0 dim (fun i f => tset f [:: (n * dim + i)%N] (peval (pinteg order (P n)) (x i))) f) zeros.

(** ** FourierFeatures, lines 106-191.  [self.order] is [2 * order + 1] (line 120). *)
Definition four_order (order : nat) : nat := (2 * order + 1)%N.
Definition half (n : nat) : R := INR n / 2.
Definition four_basis (order : nat) (freq : R) (dim : nat) (x : nat -> R) : tens :=
  loop 0 (four_order order) (fun n f =>
    loop 0 dim (fun i f =>
      tset f [:: (n * dim + i)%N]
        (if n == 0%N then 1 / sqrt (2 * PI)
         else if (n %% 2 == 0)%N then cos (half n * x i * freq) / sqrt PI
         else sin (half n.+1 * x i * freq) / sqrt PI)) f) zeros.
(** Lines 162-173. *)
Definition four_hessian (order : nat) (freq : R) (dim : nat) (const_removed : bool) (x : nat -> R) : tens :=
  let with_const := bint const_removed in
  loop with_const (four_order order) (fun n f =>
    let istart := ((n - with_const) * dim)%N in
    loop 0 dim (fun i f =>
      tset f ((istart + i)%N :: nseq 2 i)
        (if (n %% 2 == 0)%N then - (half n * freq) ^ 2 * cos (half n * freq * x i) / sqrt PI
         else - (half n.+1 * freq) ^ 2 * sin (half n.+1 * freq * x i) / sqrt PI)) f) zeros.
(** Lines 147-160. *)
Definition four_deriv (order : nat) (freq : R) (dim : nat) (const_removed : bool) (deriv_order : nat)
  (x : nat -> R) : tens :=
  if deriv_order == 2%N then four_hessian order freq dim const_removed x
  else
  let with_const := bint const_removed in
  loop with_const (four_order order) (fun n f =>
    let istart := ((n - with_const) * dim)%N in
    loop 0 dim (fun i f =>
      tset f ((istart + i)%N :: nseq deriv_order i)
        (if (n %% 2 == 0)%N then - half n * freq * sin (half n * freq * x i) / sqrt PI
         else half n.+1 * freq * cos (half n.+1 * freq * x i) / sqrt PI)) f) zeros.
(** Lines 175-191.  A zero frequency divides by zero in every column but the constant ones. *)
Definition four_antiderivative (order : nat) (freq : R) (dim order_int : nat) (x : nat -> R) : res tens :=
  if (1 < order_int)%N then Err NotImplemented
  else if (0 < order)%N && (if Req_EM_T freq 0 then true else false) then Err ZeroDivision
  else
  Ok (loop 0 (four_order order) (fun n f =>
    loop 0 dim (fun i f =>
      tset f [:: (n * dim + i)%N]
        (if n == 0%N then x i / sqrt (2 * PI)
         else if (n %% 2 == 0)%N then sin (half n * x i * freq) / (sqrt PI * INR n / 2 * freq)
         else -1 * cos (half n.+1 * x i * freq) / (sqrt PI * INR n.+1 / 2 * freq))) f) zeros).
