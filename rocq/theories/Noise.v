(** * Noise generators: VolterraBasis/gle_integrate.py:66-118 (Karhunen-Loeve).

    The random generator is a parameter (the vector of white-noise samples), and so is the
    eigendecomposition [np.linalg.eig].  Real arithmetic is exact; [nan] is [Err ZeroDivision]. *)
From mathcomp Require Import all_ssreflect all_algebra.
From Verif Require Import Base.
Set Implicit Arguments.
Unset Strict Implicit.
Unset Printing Implicit Defensive.
Import GRing.Theory Num.Theory.
Local Open Scope ring_scope.

Section Noise.
Variable R : rcfType.

(** One assignment [cov_mat[:, n] = kernel_sym[N_size - n - 1 : -n]], line 86: the slice must have
    [N_size] elements, or one (broadcast). *)
Definition cov_column (N : nat) (kernel_sym : seq R) (n : nat) : res (seq R) :=
  let c := drop (N - n - 1) (take (size kernel_sym - n) kernel_sym) in
  if size c == N then Ok c
  else if size c == 1%N then Ok (nseq N (head 0 c))
  else Err ValueError.

(** generate_stationary_covariancematrix, lines 73-87. *)
Definition stationary_cov (kernel : seq R) (backward : option (seq R)) : res 'M[R]_(size kernel) :=
  let N := size kernel in
  let backward := if backward is Some b then b else rev (drop 1 kernel) in   (* kernel[:0:-1] *)
  let kernel_sym := backward ++ kernel in
  if N == 0%N then Err OutOfBounds       (* cov_mat[:, 0] *)
  else
  let! cols := mapM (cov_column N kernel_sym) (iota 1 (N - 1)) in
  Ok (\matrix_(i, j) (nth [::] (kernel :: cols) j)`_i).

(** generate, lines 107-118; [lam], [V] are the results of [np.linalg.eig], [w] the white noise. *)
Definition kl_generate n (lam : 'rV[R]_n) (V : 'M[R]_n) (dt : R) (len : option nat) (w : 'cV[R]_n) : res (seq R) :=
  let len := if len is Some l then l else n in
  if (n < len)%N then Err ValueError
  else if [exists i, lam 0 i < 0] || (dt < 0) then Err ZeroDivision    (* np.sqrt *)
  else
  let colored := V *m diag_mx (\row_i Num.sqrt (lam 0 i)) *m w in
  Ok (map (fun x => x * Num.sqrt dt) (take len [seq colored i 0 | i <- enum 'I_n])).

End Noise.
