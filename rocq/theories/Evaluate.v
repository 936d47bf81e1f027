(** * Evaluation of the fitted terms at given points: kernel_eval
    (models.py:280-296), Pos_gle_hybrid.get_const_kernel_part and kernel_eval
    (models.py:639-656), Pos_gle_with_friction.force_eval and friction_force_eval
    (models.py:500-517).

    An array with a [dim_basis] axis of length [p] contracted with one of length [q]
    raises ValueError unless [p = q] (xarray refuses to align them).  [_partial]
    arguments such as [coeffs_ker] are left out: the stored kernel is used. *)
From mathcomp Require Import all_ssreflect all_algebra.
From Verif Require Import Base Model Estimator.
Set Implicit Arguments.
Unset Strict Implicit.
Unset Printing Implicit Defensive.
Import GRing.Theory.
Local Open Scope ring_scope.

Section Evaluate.
Variables (R : realFieldType) (dx o : nat).
Local Notation smp := (sample R dx o).

(** Row [k] of an array, by position. *)
Definition row_at p w (A : 'M[R]_(p, w)) (k : nat) : 'rV[R]_w :=
  if insub k is Some i then row i A else 0.

(** [xr.dot(K, E)] over [dim_basis]; the result has axes (observable, [dim_x']). *)
Definition dot_basis p q x (K : 'M[R]_(p, o)) (E : 'M[R]_(q, x)) : 'M[R]_(o, x) :=
  \matrix_(l, j) \sum_(k < q) row_at K k 0 l * E k j.

(** [E] in [kernel_eval], after the optional [matmulPrange]. *)
Definition kernel_basis (m : model_fns R dx o) r (P : option 'M[R]_(r, mq m)) (s : smp)
    : 'M[R]_(if P is Some _ then r else mq m, mqx m) :=
  match P return 'M[R]_(if P is Some _ then r else mq m, mqx m) with
  | Some P => P *m Kb m s
  | None => Kb m s
  end.

(** models.py:280-296: one (observable, [dim_x']) array per kernel time and point. *)
Definition kernel_eval (m : model_fns R dx o) r (P : option 'M[R]_(r, mq m)) p
    (kernel : option (seq 'M[R]_(p, o))) (xs : seq smp) : res (seq (seq 'M[R]_(o, mqx m))) :=
  if kernel is Some kern then
    let! _ := guard (p == if P is Some _ then r else mq m) ValueError in
    Ok [seq [seq dot_basis K (kernel_basis P s) | s <- xs] | K <- kern]
  else Err Documented.

(** [kernel.sel(dim_basis=0)]; no element to select in an array without rows. *)
Definition get_const_kernel_part p (kernel : option (seq 'M[R]_(p, o))) : res (seq 'rV[R]_o) :=
  if kernel is Some kern then
    let! _ := guard (0 < p)%N OutOfBounds in Ok [seq row_at K 0 | K <- kern]
  else Err Documented.

(** [kernel.sel(dim_basis=slice(1, None))] *)
Definition drop_row p (K : 'M[R]_(p, o)) : 'M[R]_(p.-1, o) := \matrix_(k, l) row_at K k.+1 0 l.

(** models.py:647-656; the class never sets [rank_projection]. *)
Definition hybrid_kernel_eval (m : model_fns R dx o) p
    (kernel : option (seq 'M[R]_(p, o))) (xs : seq smp) : res (seq (seq 'M[R]_(o, mqx m))) :=
  if kernel is Some kern then kernel_eval (m := m) (r := 0) None (Some [seq drop_row K | K <- kern]) xs
  else Err Documented.

Variable b : basis_fns R dx.

(** [einsum("ik,kl->il", E, force_coeff[:N_basis_elt])] *)
Definition friction_model_force_eval (c : option 'M[R]_(nbasis b + nderiv b, o)) (xs : seq smp)
    : res (seq 'rV[R]_o) :=
  if c is Some c then Ok [seq \row_l \sum_(k < nbasis b) bval b (s_x s) 0 k * row_at c k 0 l | s <- xs]
  else Err Documented.

(** [einsum("ikd,kl->ild", E, force_coeff[N_basis_elt:])] *)
Definition friction_force_eval (c : option 'M[R]_(nbasis b + nderiv b, o)) (xs : seq smp)
    : res (seq 'M[R]_(o, dx)) :=
  if c is Some c then
    Ok [seq \matrix_(l, j) \sum_(k < nderiv b) bderiv b (s_x s) k j * row_at c (nbasis b + k) 0 l | s <- xs]
  else Err Documented.

End Evaluate.
