(** * Property C52: layout of the finite element arrays. *)
From mathcomp Require Import all_ssreflect all_algebra.
From Verif Require Import Base FemLayout FemLayoutProofs.
Set Implicit Arguments.
Unset Strict Implicit.
Unset Printing Implicit Defensive.
Import GRing.Theory.
Local Open Scope ring_scope.

(** C52. The basis array, in any dimension. *)
Theorem C52_basis (V : zmodType) ns Nb nout dofs cells (phi : nat -> nat -> V) :
  (forall k s, (k < Nb)%N -> (s < ns)%N -> (dofs k (cells s) < nout)%N) ->
  exists2 D, fem_basis ns Nb nout dofs cells phi = Ok D &
  forall s d, (s < ns)%N -> D s d = basis_spec Nb dofs cells phi s d.
Proof. exact: fem_basisE. Qed.
(** The derivative array, in one dimension... *)
Theorem C52_deriv_1d_partial (V : zmodType) ns Nb nout dofs cells (grad : nat -> nat -> nat -> V) :
  (forall k s, (k < Nb)%N -> (s < ns)%N -> (dofs k (cells s) < nout)%N) ->
  exists2 D, fem_deriv ns Nb 1 nout dofs cells grad = Ok D &
  forall s d, (s < ns)%N -> D s d 0%N = deriv_spec Nb dofs cells grad s d 0.
Proof. exact: fem_deriv1. Qed.
(** ...or for a single function at a single sample... *)
Theorem C52_deriv_single_partial (V : zmodType) dim nout dofs cells (grad : nat -> nat -> nat -> V) :
  (dofs 0%N (cells 0%N) < nout)%N ->
  exists2 D, fem_deriv 1 1 dim nout dofs cells grad = Ok D &
  forall d j, (j < dim)%N -> D 0%N d j = deriv_spec 1 dofs cells grad 0 d j.
Proof. exact: fem_deriv_single. Qed.
(** ...and never otherwise: on every mesh some gradients are put at the wrong place. *)
Theorem C52_deriv_refuted (V : zmodType) ns Nb dim nout dofs cells (v : V) :
  v <> 0 -> (1 < dim)%N -> (1 < Nb * ns)%N ->
  (forall k s, (k < Nb)%N -> (s < ns)%N -> (dofs k (cells s) < nout)%N) ->
  exists (grad : nat -> nat -> nat -> V) D, fem_deriv ns Nb dim nout dofs cells grad = Ok D /\
  exists s d j, [/\ (s < ns)%N, (d < nout)%N, (j < dim)%N & D s d j <> deriv_spec Nb dofs cells grad s d j].
Proof. exact: fem_deriv_wrong. Qed.
Print Assumptions C52_basis.
Print Assumptions C52_deriv_1d_partial.
Print Assumptions C52_deriv_single_partial.
Print Assumptions C52_deriv_refuted.
(** Two triangles sharing an edge, three samples. *)
Definition square_dofs (k c : nat) : nat := if c == 0%N then nth 0%N [:: 0; 1; 2]%N k else nth 0%N [:: 1; 2; 3]%N k.
Definition square_cells (s : nat) : nat := if s == 1%N then 1%N else 0%N.
Example C52_example : (forall k s, (k < 3)%N -> (s < 3)%N -> (square_dofs k (square_cells s) < 4)%N) /\
  basis_spec 3 square_dofs square_cells (fun k s => (10 * k + s)%:Z) 1 2 = 11%:Z.
Proof.
split; first by case=> [|[|[|k]]] // [|[|[|s]]].
by rewrite /basis_spec big_mkcond /= !big_ord_recl big_ord0.
Qed.
Example C52_example_refuted : exists (grad : nat -> nat -> nat -> int) D, fem_deriv 3 3 2 4 square_dofs square_cells grad = Ok D /\
  exists s d j, [/\ (s < 3)%N, (d < 4)%N, (j < 2)%N & D s d j <> deriv_spec 3 square_dofs square_cells grad s d j].
Proof. by apply: (@fem_deriv_wrong _ 3 3 2 4 _ _ (1 : int)) => // -[|[|[|k]]] // [|[|[|s]]]. Qed.
