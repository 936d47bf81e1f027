(** * Properties C24, C25: correlation estimators. *)
From mathcomp Require Import all_ssreflect all_algebra.
From mathcomp Require Import complex.
From Verif Require Import Base Correlation CorrelationSpec CorrelationProofs.
Set Implicit Arguments.
Unset Strict Implicit.
Unset Printing Implicit Defensive.
Import GRing.Theory.
Local Open Scope ring_scope.

(** Hypothesis of this file on the FFT: at each power-of-two length the transform
    is built on a primitive root of unity of that order. *)
Notation fft_roots w := (forall k, (2 ^ k.+1)%N.-primitive_root (w (2 ^ k.+1)%N)).

(** ** C24 *)
Theorem C24_fft_1D (R : rcfType) (w : nat -> R[i]) (a b : seq R) trunc :
  fft_roots w -> (0 < size a)%N -> size b = size a ->
  correlation_1D w a (Some b) trunc
  = Ok (mkseq (corr_estimate (size a) (nth 0 a) (nth 0 b)) (len_trunc (size a) trunc)).
Proof. move=> wP; exact: correlation_1DE. Qed.
Print Assumptions C24_fft_1D.

Theorem C24_fft_1D_auto (R : rcfType) (w : nat -> R[i]) (a : seq R) trunc :
  fft_roots w -> (0 < size a)%N ->
  correlation_1D w a None trunc
  = Ok (mkseq (corr_estimate (size a) (nth 0 a) (nth 0 a)) (len_trunc (size a) trunc)).
Proof. move=> wP; exact: correlation_1D_auto. Qed.
Print Assumptions C24_fft_1D_auto.

Theorem C24_direct_1D (R : rcfType) (a b : seq R) trunc :
  size b = size a -> (0 < len_trunc (size a) trunc)%N ->
  correlation_direct_1D a (Some b) trunc
  = Ok (mkseq (corr_estimate (size a) (nth 0 a) (nth 0 b)) (len_trunc (size a) trunc)).
Proof. exact: direct_1DE. Qed.
Print Assumptions C24_direct_1D.

Theorem C24_fft_ND (R : rcfType) (w : nat -> R[i]) p q T
    (a : 'M[R]_(p, T)) (b : 'M[R]_(q, T)) trunc :
  fft_roots w -> (0 < T)%N ->
  correlation_ND w a b trunc = Ok (mkseq (corr_matrix a b) (len_trunc T trunc)).
Proof. move=> wP; exact: correlation_NDE. Qed.
Print Assumptions C24_fft_ND.

Theorem C24_direct_ND (R : rcfType) p q T (a : 'M[R]_(p, T)) (b : 'M[R]_(q, T)) trunc :
  (0 < len_trunc T trunc)%N ->
  correlation_direct_ND a b trunc = Ok (mkseq (corr_matrix a b) (len_trunc T trunc)).
Proof. exact: direct_NDE. Qed.
Print Assumptions C24_direct_ND.

(** The only truncation at which they differ: [trunc = 0], where the FFT estimator
    returns an empty array and the direct one raises. *)
Theorem C24_direct_trunc_zero (R : rcfType) (a b : seq R) :
  size b = size a -> correlation_direct_1D a (Some b) (Some 0%N) = Err OutOfBounds.
Proof. exact: direct_trunc0. Qed.
Print Assumptions C24_direct_trunc_zero.

(** The hypothesis on roots is met over every real closed field. *)
Example C24_roots_exist (R : rcfType) : fft_roots (root_family R).
Proof. by move=> k; apply: root_familyP; rewrite expn_gt0. Qed.

Example C24_example (R : rcfType) :
  correlation_1D (root_family R) [:: 1; 2%:R; 3%:R] (Some [:: 1; 0; 1]) (Some 2%N)
  = Ok [:: 4%:R / 3%:R; 1].
Proof.
rewrite (C24_fft_1D _ (C24_roots_exist R)) //; congr Ok.
rewrite /mkseq /= /corr_estimate !big_ord_recl !big_ord0 /=.
rewrite ?(mul1r, mulr1, mulr0, addr0, add0r) -[1 + _](natrD _ 1 3) mulrC.
by congr [:: _; _]; rewrite mulVf // Num.Theory.pnatr_eq0.
Qed.

(** ** C25 (false for two components or more: finding F8) *)
Theorem C25_single_argument_refuted (R : rcfType) (w : nat -> R[i]) :
  fft_roots w ->
  exists (a : 'M[R]_(2, 2)) x,
    correlation_ND_single w a None = Ok x /\ correlation_direct_ND_single a None <> Ok x.
Proof. by move=> wP; have [x ? ?] := single_disagree wP; exists (ex_two R), x. Qed.
Print Assumptions C25_single_argument_refuted.

Theorem C25_single_argument_transposed_refuted (R : rcfType) (w : nat -> R[i]) :
  fft_roots w ->
  exists (a : 'M[R]_(2, 2)) x,
    correlation_ND_single w a None = Ok x /\
    ~ (forall n, (n < size x)%N -> nth 0 x n = corr_matrix a a n).
Proof. by move=> wP; have [x ? ?] := single_transposed wP; exists (ex_two R), x. Qed.
Print Assumptions C25_single_argument_transposed_refuted.

(** What each returns, for every number of components. *)
Theorem C25_fft_single_partial (R : rcfType) (w : nat -> R[i]) p T (a : 'M[R]_(p, T)) trunc :
  fft_roots w -> (0 < T)%N ->
  correlation_ND_single w a trunc
  = Ok (mkseq (fun n => (corr_matrix a a n)^T) (len_trunc T trunc)).
Proof. move=> wP; exact: correlation_ND_singleE. Qed.
Print Assumptions C25_fft_single_partial.

Theorem C25_direct_single_partial (R : rcfType) p T (a : 'M[R]_(p, T)) trunc :
  (0 < len_trunc T trunc)%N ->
  correlation_direct_ND_single a trunc
  = Ok (mkseq (fun n => \matrix_(i, j) corr_matrix a a n j j) (len_trunc T trunc)).
Proof. exact: direct_ND_singleE. Qed.
Print Assumptions C25_direct_single_partial.

Theorem C25_one_component_partial (R : rcfType) (w : nat -> R[i]) T (a : 'rV[R]_T) trunc :
  fft_roots w -> (0 < len_trunc T trunc)%N ->
  correlation_direct_ND_single a trunc = correlation_ND_single w a trunc /\
  correlation_ND_single w a trunc = Ok (mkseq (corr_matrix a a) (len_trunc T trunc)).
Proof. move=> wP; exact: single_agree1. Qed.
Print Assumptions C25_one_component_partial.
