(** * Projection on the range of the kernel basis,
    /repo/VolterraBasis/models.py:95-119 and gle_estimation.py:274-285.

    [np.linalg.svd(B0, hermitian=True)] is an input of the model: the eigenvectors [U]
    and the absolute values [S] of the eigenvalues, in decreasing order (its specification
    is [eigh_spec], /RangeProjProofs.v/).  The warnings printed are left out. *)
From mathcomp Require Import all_ssreflect all_algebra.
From Verif Require Import Base.
Set Implicit Arguments.
Unset Strict Implicit.
Unset Printing Implicit Defensive.
Import GRing.Theory Num.Theory.
Local Open Scope ring_scope.

Section RangeProj.
Variables (R : realFieldType) (N : nat).

(** Default tolerance, lines 103-104 ([eps] is the precision of the floats). *)
Definition rank_tolerance (rank_tol : option R) (eps : R) (S : 'rV[R]_N) : R :=
  if rank_tol is Some t then t else (\big[Num.max/0]_i S 0 i) * N%:R * eps.

(** Line 105 *)
Definition count_rank (tol : R) (S : 'rV[R]_N) : nat := count (fun i => tol < S 0 i) (enum 'I_N).

(** [U[:, :rank].T], line 113 *)
Definition first_rows (r : nat) (U : 'M[R]_N) : 'M[R]_(r, N) :=
  \matrix_(i, j) (if insub (val i) is Some c then U j c else 0).

Record projection := Proj { p_rank : nat; p_mat : 'M[R]_(p_rank, N) }.

(** Lines 95-119; [N_basis_elt_kernel - dim_x] may be negative. *)
Definition set_range_projection (dim_x : nat) (tol : R) (U : 'M[R]_N) (S : 'rV[R]_N) : res projection :=
  let rank := count_rank tol S in
  if (rank < N)%N then
    if (N < dim_x)%N || (rank != N - dim_x)%N then Ok (Proj (first_rows rank U))
    else if rank == 0%N then Err Documented
    else Ok (Proj (first_rows rank U))
  else Ok (Proj (1%:M : 'M[R]_N)).

End RangeProj.
