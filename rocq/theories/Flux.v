(** * Model of ModelBase.flux_from_volterra (models.py:316-346), memory part. *)
From mathcomp Require Import all_ssreflect all_algebra.
From Verif Require Import Base FKernel.
Set Implicit Arguments.
Unset Strict Implicit.
Unset Printing Implicit Defensive.
Import GRing.Theory.
Local Open Scope ring_scope.

(** models.py:338-343: the quadrature chosen by [method]; any other string falls
    through the if/elif chain silently. *)
Inductive quad_method := QRect | QTrapz | QSimpson | QOther.

Section Flux.
Variables (R : realFieldType) (d m : nat).
Implicit Types (G : seq 'M[R]_d) (K : seq 'M[R]_(d, m)).

(** models.py:335-345.  [G] is [corrs_kernel] with one square matrix per time
    (line 335 sizes the result with [corrs_kernel.shape[1]], so the first two axes
    must agree).  [G[n-max_len:n]] stops before [n]; f2py sets the routine's [n] to
    the number of samples passed minus one, here [max_len - 1].  A kernel without
    samples is rejected by f2py. *)
Definition flux_memory (method : quad_method) (dt : R) G K : res (seq 'M[R]_(d, m)) :=
  for_ 1 (size G) (fun n res_int =>
    let! _ := guard (0 < size K)%N ShapeMismatch in
    let max_len := minn n (size K) in
    let Gs := drop (n - max_len) (take n G) in
    let Ks := take max_len K in
    match method with
    | QRect => let! v := rect_integral dt max_len.-1 Gs Ks in wr res_int n (-1 *: v)
    | QTrapz => let! v := trapz_integral dt max_len.-1 Gs Ks in wr res_int n (-1 *: v)
    | QSimpson => let! v := simpson_integral dt max_len.-1 Gs Ks in wr res_int n (-1 *: v)
    | QOther => Ok res_int
    end) (nseq (size G) 0).

(** models.py:334 [np.matmul(force_coeff, corrs_force)], [corrs_force] having the axes
    (row, [dim_basis], time): numpy multiplies the last two axes, for every index of the
    first one. *)
Definition flux_force a p (Fc : 'M[R]_(a, d)) (C : seq 'M[R]_(p, d)) : seq 'M[R]_(p, a) :=
  [seq \matrix_(q, i) (\sum_j Fc i j * (g : 'M[R]_(p, d)) q j) | g <- C].

End Flux.
