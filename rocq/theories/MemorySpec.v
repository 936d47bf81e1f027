(** * Specification of memory terms, window averages and time evolution. *)
From mathcomp Require Import all_ssreflect all_algebra.
From Verif Require Import Quadrature.
Set Implicit Arguments.
Unset Strict Implicit.
Unset Printing Implicit Defensive.
Import GRing.Theory.
Local Open Scope ring_scope.

Section Spec.
Variables (R : realFieldType) (d m o : nat).

(** Integrand of the memory convolution at time [i]: [s -> E(i - s) K(s)]. *)
Definition mem_integrand p (E : seq 'M[R]_(p, d)) (K : seq 'M[R]_(d, m)) (i : nat)
    : nat -> 'M[R]_(p, m) := fun j => E`_(i - j) *m K`_j.

(** Memory at time [i] from a window start at time 0, rectangle rule keeping both
    end points of the window, window limited to the [L = size K - 1] steps covered
    by the kernel. *)
Definition is_memory_rect (dt : R) (K : seq 'M[R]_(d, m)) (E : seq 'rV[R]_d)
    (mem : seq 'rV[R]_m) : Prop :=
  [/\ size mem = size E, mem`_0 = 0
    & forall i, (0 < i < size E)%N ->
        mem`_i = - rect_rule dt (mem_integrand E K i) (minn i (size K).-1).+1].

(** Same, trapezoid rule over [min i L] panels. *)
Definition is_memory_trapz (dt : R) (K : seq 'M[R]_(d, m)) (E : seq 'rV[R]_d)
    (mem : seq 'rV[R]_m) : Prop :=
  [/\ size mem = size E, mem`_0 = 0
    & forall i, (0 < i < size E)%N ->
        mem`_i = - trapz_rule dt (mem_integrand E K i) (minn i (size K).-1)].

(** Noise [n] steps after a restart at time [t]: total force residual plus the
    quadrature of the memory integrand over those [n] steps. *)
Definition noise_rect (dt : R) (xi : seq 'rV[R]_m) (K : seq 'M[R]_(d, m))
    (E : seq 'rV[R]_d) (t n : nat) : 'rV[R]_m :=
  xi`_(t + n) + rect_rule dt (mem_integrand E K (t + n)) n.
Definition noise_trapz (dt : R) (xi : seq 'rV[R]_m) (K : seq 'M[R]_(d, m))
    (E : seq 'rV[R]_d) (t n : nat) : 'rV[R]_m :=
  xi`_(t + n) + trapz_rule dt (mem_integrand E K (t + n)) n.

(** Average over all starts [t] of [left(t)^T . noise(t, n)]. *)
Definition window_average (left : seq 'rV[R]_o) (noise : nat -> nat -> 'rV[R]_m)
    (n : nat) : 'M[R]_(o, m) :=
  (size left - n)%:R^-1 *: \sum_(t < size left - n) (left`_t)^T *m noise t n.

End Spec.

(** One step of the discretised evolution equation
    [dG/dt = G F - int G(t-s) K(s) ds], explicit in the force, implicit in the
    newest memory sample. *)
Section Evolve.
Variables (R : realFieldType) (d o : nat).
Implicit Types (G : seq 'M[R]_(o, d)) (K : seq 'M[R]_d) (F : 'M[R]_d).

Definition evolves_trapz (dt : R) K F G : Prop :=
  forall i, (0 < i < size G)%N ->
    G`_i - G`_i.-1
    = dt *: (G`_i.-1 *m F
             - trapz_rule dt (mem_integrand G K i) (minn i (size K).-1)).

Definition evolves_rect (dt : R) K F G : Prop :=
  forall i, (0 < i < size G)%N ->
    G`_i - G`_i.-1
    = dt *: (G`_i.-1 *m F
             - rect_rule dt (mem_integrand G K i) (minn i (size K).-1)).

(** The probability simplex. *)
Definition on_simplex (A : 'M[R]_(o, d)) : Prop :=
  (forall i j, 0 <= A i j) /\ \sum_i \sum_j A i j = 1.

End Evolve.
