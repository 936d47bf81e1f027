(** * Specification: Volterra equations in continuous time.

    Independent of the model.  Matrices of functions over the real numbers of the standard
    library; bounds are entry by entry. *)
From Coq Require Import Reals.
From Coquelicot Require Import Coquelicot.
From mathcomp Require Import all_ssreflect all_algebra.
From Verif Require Import RealsMC.
Set Implicit Arguments.
Unset Strict Implicit.
Unset Printing Implicit Defensive.
Import Order.TTheory GRing.Theory Num.Theory.
Local Open Scope ring_scope.
Bind Scope ring_scope with Rdefinitions.R.

(** Every entry is at most [e] in absolute value. *)
Definition within (R : realFieldType) a b (e : R) (A : 'M[R]_(a, b)) : Prop :=
  forall i j, `|A i j| <= e.

Local Notation R := Rdefinitions.R.

(** Integral of a matrix of functions. *)
Definition mint a b (F : R -> 'M[R]_(a, b)) (x y : R) : 'M[R]_(a, b) :=
  \matrix_(i, j) RInt (fun s => F s i j) x y.

Section Spec.
Variables (d m : nat).
Implicit Types (T dt : R).

(** [int_0^t B(t - s) K(s) ds = - D(t)] on [[0, T]]. *)
Definition volterra1 T (B : R -> 'M[R]_d) (D K : R -> 'M[R]_(d, m)) : Prop :=
  forall t, 0 <= t <= T -> mint (fun s => B (t - s) *m K s) 0 t = - D t.

(** [B(0) K(t) = int_0^t B'(t - s) K(s) ds + D'(t)] on [[0, T]]; the dots of the program are on
    the earlier time, so that [B'] and [D'] are minus the derivatives of [B] and [D]. *)
Definition volterra2 T (B0 : 'M[R]_d) (Bd : R -> 'M[R]_d) (Dd K : R -> 'M[R]_(d, m)) : Prop :=
  forall t, 0 <= t <= T -> B0 *m K t = mint (fun s => Bd (t - s) *m K s) 0 t + Dd t.

End Spec.

Section Regular.
Variables (a b : nat).
Implicit Types (F G : R -> 'M[R]_(a, b)) (M T dt : R).

(** Bounded and Lipschitz. *)
Definition lipschitz M T F : Prop :=
  (forall x, 0 <= x <= T -> within M (F x)) /\
  (forall x y, 0 <= x <= T -> 0 <= y <= T -> within (M * `|x - y|) (F x - F y)).

(** [G] is the derivative of [F], with a quadratic remainder. *)
Definition derivative M T F G : Prop :=
  forall x y, 0 <= x <= T -> 0 <= y <= T -> within (M * (y - x) ^+ 2) (F y - F x - (y - x) *: G x).

(** [N] samples of [F], one every [dt]. *)
Definition samples dt N F : seq 'M[R]_(a, b) := mkseq (fun i => F (i%:R * dt)) N.
End Regular.
