(** * What the library functions used by the evaluation of Prony series satisfy. *)
From mathcomp Require Import all_ssreflect all_algebra.
From mathcomp Require Import complex.
Set Implicit Arguments.
Unset Strict Implicit.
Unset Printing Implicit Defensive.
Import Order.TTheory GRing.Theory Num.Theory.
Local Open Scope ring_scope.
Local Open Scope complex_scope.

Section Spec.
Variable R : rcfType.
Local Notation C := R[i].
Local Notation Re := (@complex.Re R).
Local Notation Im := (@complex.Im R).

(** [ex] is an exponential and [lg] its principal logarithm. *)
Definition negreal (z : C) : bool := (Re z < 0) && (Im z == 0).

Definition modulus (z : C) : R := Num.sqrt (Re z ^+ 2 + Im z ^+ 2).

Record exp_log (ex lg : C -> C) : Prop := ExpLog {
  ex_add : forall x y, ex (x + y) = ex x * ex y;
  ex_conj : forall x, ex x^* = (ex x)^*;
  ex_lg : forall z, z != 0 -> ex (lg z) = z;
  lg_conj : forall z, z != 0 -> ~~ negreal z -> lg z^* = (lg z)^* }.

(** The exponential of a matrix similar to a diagonal one. *)
Definition is_expm (ex : C -> C) (expm : forall m, 'M[R]_m -> 'M[R]_m) : Prop :=
  forall m (A : 'M[R]_m) (W : 'M[C]_m) (l : 'rV[C]_m), W \in unitmx ->
  map_mx (real_complex R) A = W *m diag_mx l *m invmx W ->
  map_mx (real_complex R) (@expm m A) = W *m diag_mx (map_mx ex l) *m invmx W.

(** A complete set of eigenvectors: eigenvalue and column.  Real eigenvalues come with real
    columns, and the arrays are real when all the eigenvalues are. *)
Record eigen_of n (J : 'M[R]_n) (cplx : bool) (e : seq (C * seq C)) : Prop := EigenOf {
  eig_size : size e = n;
  eig_unit : (\matrix_(i < n, j < n) (nth (0, [::]) e j).2`_i) \in unitmx;
  eig_vect : forall i j : 'I_n, \sum_k (J i k)%:C * (nth (0, [::]) e j).2`_k
                                = (nth (0, [::]) e j).1 * (nth (0, [::]) e j).2`_i;
  eig_real : forall i j : 'I_n, Im (nth (0, [::]) e j).1 = 0 -> Im (nth (0, [::]) e j).2`_i = 0;
  eig_type : cplx = ~~ all (fun p : C * seq C => Im p.1 == 0) e }.

End Spec.
