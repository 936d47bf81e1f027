(** * Property C45, Karhunen-Loeve generator (the coloured noise generator is in PropColored.v). *)
From mathcomp Require Import all_ssreflect all_algebra.
From Verif Require Import Base Noise NoiseProofs NoiseWitness.
Set Implicit Arguments.
Unset Strict Implicit.
Unset Printing Implicit Defensive.
Import Order.TTheory GRing.Theory Num.Theory.
Local Open Scope ring_scope.

(** Symmetric Toeplitz matrix of the kernel. *)
Theorem C45_covariance_matrix (R : rcfType) (kernel : seq R) : (0 < size kernel)%N ->
  exists2 C, stationary_cov kernel None = Ok C &
    C^T = C /\ forall i j, C i j = kernel`_((i - j) + (j - i)).
Proof.
move=> k0; have [C -> H] := stationary_sym k0; exists C => //; split=> //.
by apply/matrixP => i j; rewrite mxE !H addnC.
Qed.
Print Assumptions C45_covariance_matrix.

(** With a given backward kernel. *)
Theorem C45_backward (R : rcfType) (kernel b : seq R) : (0 < size kernel)%N -> size b = (size kernel).-1 ->
  exists2 C, stationary_cov kernel (Some b) = Ok C &
    forall i j, C i j = if (j <= i)%N then kernel`_(i - j) else b`_((size kernel).-1 - (j - i)).
Proof. by move=> k0 sb; exact: (stationary_gen k0 sb (C0 := Some b)). Qed.
Print Assumptions C45_backward.

Theorem C45_noise_partial (R : rcfType) (Omega : Type) (L : (Omega -> R) -> Prop) (Ex : (Omega -> R) -> R) :
  expectation L Ex ->
  forall n (C V : 'M[R]_n) lam dt len (w : Omega -> 'cV[R]_n),
  orthonormal_eig C lam V -> (forall i, 0 <= lam 0 i) -> 0 <= dt -> (odflt n len <= n)%N -> white L Ex w ->
  exists2 eta : Omega -> seq R, forall x, kl_generate lam V dt len (w x) = Ok (eta x) &
    [/\ forall x, size (eta x) = odflt n len,
        forall i : 'I_n, (i < odflt n len)%N -> L (fun x => (eta x)`_i) /\ Ex (fun x => (eta x)`_i) = 0
      & forall i j : 'I_n, (i < odflt n len)%N -> (j < odflt n len)%N ->
          L (fun x => (eta x)`_i * (eta x)`_j) /\ Ex (fun x => (eta x)`_i * (eta x)`_j) = dt * C i j].
Proof. by move=> HE n C V lam dt len w; exact: kl_covariance. Qed.
Print Assumptions C45_noise_partial.

Theorem C45_too_long (R : rcfType) n (lam : 'rV[R]_n) V dt len w :
  (n < len)%N -> kl_generate lam V dt (Some len) w = Err ValueError.
Proof. exact: kl_too_long. Qed.
Print Assumptions C45_too_long.

(** A negative eigenvalue: nothing is generated, and indeed nothing has that covariance. *)
Theorem C45_indefinite (R : rcfType) n (C V : 'M[R]_n) lam i : orthonormal_eig C lam V -> lam 0 i < 0 ->
  (forall dt len w, (odflt n len <= n)%N -> kl_generate lam V dt len w = Err ZeroDivision) /\
  forall (Omega : Type) (L : (Omega -> R) -> Prop) Ex, expectation L Ex ->
    (forall f, L f -> (forall x, 0 <= f x) -> 0 <= Ex f) ->
    forall dt (eta : Omega -> 'cV[R]_n), 0 < dt ->
    ~ (forall k j, L (fun x => eta x k 0 * eta x j 0) /\ Ex (fun x => eta x k 0 * eta x j 0) = dt * C k j).
Proof.
move=> HC li; split=> [dt len w|Omega L Ex HE pos dt eta d0]; first by move=> ln; exact: (kl_nan _ _ _ li ln).
exact: (no_noise HE HC li d0 pos).
Qed.
Print Assumptions C45_indefinite.

(** Kernels with such eigenvalues are accepted by the constructor. *)
Theorem C45_nan_refuted (R : rcfType) : exists (kernel : seq R) (C : 'M[R]_(size kernel)) lam V,
  [/\ stationary_cov kernel None = Ok C, orthonormal_eig C lam V
    & forall dt w, kl_generate lam V dt None w = Err ZeroDivision].
Proof. exact: nan_refuted. Qed.
Print Assumptions C45_nan_refuted.

(** [np.linalg.eig] only promises unit eigenvectors: equal eigenvalues may give a wrong covariance. *)
Theorem C45_eig_refuted (R : rcfType) :
  exists (kernel : seq R) (C : 'M[R]_(size kernel)) lam V (i j : 'I_(size kernel)),
  [/\ stationary_cov kernel None = Ok C, eig C lam V, forall k, 0 <= lam 0 k
    & forall (Omega : Type) (L : (Omega -> R) -> Prop) Ex (w : Omega -> 'cV[R]_(size kernel)),
        expectation L Ex -> white L Ex w ->
        exists2 eta, forall x, kl_generate lam V 1 None (w x) = Ok (eta x)
          & Ex (fun x => (eta x)`_i * (eta x)`_j) <> C i j].
Proof. exact: slanted_refuted. Qed.
Print Assumptions C45_eig_refuted.

(** White noise of every length exists, and the kernel 1, 1/2 has a nonnegative decomposition. *)
Example C45_white_exists (R : rcfType) n :
  expectation (fun _ : {ffun 'I_n -> bool} -> R => True) (@mean R n)
  /\ white (fun _ => True) (@mean R n) (@signs R n).
Proof. by split; [exact: mean_expectation | exact: signs_white]. Qed.

Example C45_kernel_exists (R : rcfType) : exists (C : 'M[R]_2) lam V,
  [/\ stationary_cov [:: 1; 2%:R^-1] None = Ok C, orthonormal_eig C lam V & forall i, 0 <= lam 0 i].
Proof. exact: half_eig. Qed.
