(** * Finite element basis: layout of the sparse arrays, _fem_features.py:104-123.

    The library's shape functions are a parameter: [phi k s] is the value of local function [k]
    (of [Nb]) at sample [s] (of [ns]) in its cell, [grad k s j] its derivative along [j];
    [dofs k c] is [element_dofs[k, c]] and [cells s] the cell found for sample [s]. *)
From mathcomp Require Import all_ssreflect all_algebra.
From Verif Require Import Base.
Set Implicit Arguments.
Unset Strict Implicit.
Unset Printing Implicit Defensive.
Import GRing.Theory.
Local Open Scope ring_scope.

Definition tile (k : nat) (a : seq nat) : seq nat := flatten (nseq k a).
(** [np.repeat(np.arange(n), c)]. *)
Definition repeat_arange (n c : nat) : seq nat := flatten (mkseq (nseq c) n).

Section Layout.
Variable V : zmodType.
(** [np.ravel] of an array of shape (m, n): the last index runs fastest. *)
Definition ravel2 T (m n : nat) (f : nat -> nat -> T) : seq T := flatten (mkseq (fun k => mkseq (f k) n) m).
Definition ravel3 T (m n p : nat) (f : nat -> nat -> nat -> T) : seq T :=
  flatten (mkseq (fun k => ravel2 n p (f k)) m).

(** [sparse.COO(coords, data, shape).todense()]: entries at the same place are added; data and
    coordinates of different lengths, or coordinates outside the shape, are refused. *)
Definition coo2 (rows cols : seq nat) (data : seq V) (n m : nat) : res (nat -> nat -> V) :=
  if [&& size rows == size data, size cols == size data, all (gtn n) rows & all (gtn m) cols]
  then Ok (fun i j => \sum_(e < size data | (nth 0%N rows e == i) && (nth 0%N cols e == j)) nth 0 data e)
  else Err ValueError.
Definition coo3 (rows cols dirs : seq nat) (data : seq V) (n m d : nat) : res (nat -> nat -> nat -> V) :=
  if [&& size rows == size data, size cols == size data, size dirs == size data,
      all (gtn n) rows, all (gtn m) cols & all (gtn d) dirs]
  then Ok (fun i j l => \sum_(e < size data | [&& nth 0%N rows e == i, nth 0%N cols e == j & nth 0%N dirs e == l]) nth 0 data e)
  else Err ValueError.

(** basis, lines 104-111. *)
Definition fem_basis (ns Nb nout : nat) (dofs : nat -> nat -> nat) (cells : nat -> nat) (phi : nat -> nat -> V) :=
  coo2 (tile Nb (iota 0 ns)) (ravel2 Nb ns (fun k s => dofs k (cells s))) (ravel2 Nb ns phi) ns nout.
(** deriv, lines 113-123: the gradients are put in the order (function, sample, direction). *)
Definition fem_deriv (ns Nb dim nout : nat) (dofs : nat -> nat -> nat) (cells : nat -> nat) (grad : nat -> nat -> nat -> V) :=
  coo3 (tile (dim * Nb) (iota 0 ns)) (tile dim (ravel2 Nb ns (fun k s => dofs k (cells s))))
       (repeat_arange dim (ns * Nb)) (ravel3 Nb ns dim grad) ns nout dim.
End Layout.
