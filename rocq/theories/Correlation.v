(** * Model of /repo/VolterraBasis/correlation.py (lines 1-73).

    Real numbers: an arbitrary real closed field [R]; complex numbers: [R[i]].
    [np.fft.fft] is modelled by the discrete Fourier sum for a given primitive
    [N]-th root of unity (numpy uses [exp(-2 i pi / N)]); the root is a parameter
    [w : nat -> R[i]] indexed by the transform length. *)
From mathcomp Require Import all_ssreflect all_algebra.
From mathcomp Require Import complex.
From Verif Require Import Base.
Set Implicit Arguments.
Unset Strict Implicit.
Unset Printing Implicit Defensive.
Import GRing.Theory.
Local Open Scope ring_scope.
Local Open Scope complex_scope.

Section Correlation.
Variable R : rcfType.
Local Notation C := R[i].
Variable w : nat -> C.

(** [np.fft.fft(a, n=N)]: crops or zero-pads to [N] samples, then transforms. *)
Definition fft (N : nat) (a : seq C) : seq C :=
  mkseq (fun k => \sum_(t < N) a`_t * w N ^+ (k * t)) N.

(** [np.fft.ifft(x)] *)
Definition ifft (x : seq C) : seq C :=
  let N := size x in
  mkseq (fun n => N%:R^-1 * \sum_(k < N) x`_k * w N ^- (k * n)) N.

(** [np.ceil(np.log(n)/np.log(2))] for [n >= 1]. *)
Definition ceil_log2 (n : nat) : nat := up_log 2 n.

Definition toC (a : seq R) : seq C := [seq x%:C | x <- a].

(** Elementwise product of two arrays of equal length, first one conjugated. *)
Definition conj_mul (x y : seq C) : res (seq C) :=
  if size x == size y then Ok [seq conjc p.1 * p.2 | p <- zip x y] else Err ShapeMismatch.

(** correlation.py:14-18: length of the result. *)
Definition len_trunc (T : nat) (trunc : option nat) : nat :=
  if trunc is Some n then minn T n else T.

(** correlation.py:18: keep the first lags, real part, divide by the number of
    terms. *)
Definition normalise (T L : nat) (x : seq C) : seq R :=
  mkseq (fun n => complex.Re x`_n / (T - n)%:R) L.

(** correlation.py:4-19.  An empty array makes [np.log(0)] infinite and [int]
    raises. *)
Definition correlation_1D (a : seq R) (b : option (seq R)) (trunc : option nat)
    : res (seq R) :=
  let! _ := guard (0 < size a)%N ValueError in
  let fra := fft (2 ^ (ceil_log2 (size a) + 1)) (toC a) in
  let! sf := (match b with
    | None => conj_mul fra fra
    | Some b =>
        let! _ := guard (0 < size b)%N ValueError in
        let b2 := b ++ nseq (2 ^ ceil_log2 (size b) - size b) 0 in
        let data_b := b2 ++ nseq (size b2) 0 in
        conj_mul fra (fft (size data_b) (toC data_b))
    end) in
  Ok (normalise (size a) (len_trunc (size a) trunc) (ifft sf)).

(** correlation.py:41-53 (1-D direct). [np.dot] wants equal lengths; [res[0]] is
    written even when the result has no element. *)
Definition dot (a b : seq R) : res R :=
  if size a == size b then Ok (\sum_(p <- zip a b) p.1 * p.2) else Err ShapeMismatch.

Definition correlation_direct_1D (a : seq R) (b : option (seq R)) (trunc : option nat)
    : res (seq R) :=
  let L := len_trunc (size a) trunc in
  let T := size a in
  let b := odflt a b in
  let! d0 := dot a b in
  let! r := wr (nseq L 0) 0 (d0 / T%:R) in
  for_ 1 L (fun n r =>
    let! dn := dot (take (size a - n) a) (drop n b) in
    wr r n (dn / (T - n)%:R)) r.

(** correlation.py:22-38.  [a] is [(d, T)], [b] is [(e, T)]; the two-argument call
    comes from [apply_ufunc] with shapes [(d,1,T)] and [(e,T)], so entry [i,j] pairs
    [a_i] with [b_j]; with one argument line 28 pairs [a_j] (conjugated, i.e.
    first) with [a_i]. *)
Definition row_seq n T (a : 'M[R]_(n, T)) (i : 'I_n) : seq R := mkseq (fun t => if insub t is Some t then a i t else 0) T.

Definition lag_spectrum (T : nat) (x y : seq R) : seq C :=
  let N := (2 ^ (ceil_log2 T + 1))%N in
  ifft [seq conjc p.1 * p.2 | p <- zip (fft N (toC x)) (fft N (toC y))].

Definition correlation_ND n e T (a : 'M[R]_(n, T)) (b : 'M[R]_(e, T)) (trunc : option nat)
    : res (seq 'M[R]_(n, e)) :=
  let! _ := guard (0 < T)%N ValueError in
  Ok (mkseq (fun l => \matrix_(i, j)
        nth 0 (normalise T (len_trunc T trunc) (lag_spectrum T (row_seq a i) (row_seq b j))) l)
      (len_trunc T trunc)).

Definition correlation_ND_single n T (a : 'M[R]_(n, T)) (trunc : option nat)
    : res (seq 'M[R]_n) :=
  let! _ := guard (0 < T)%N ValueError in
  Ok (mkseq (fun l => \matrix_(i, j)
        nth 0 (normalise T (len_trunc T trunc) (lag_spectrum T (row_seq a j) (row_seq a i))) l)
      (len_trunc T trunc)).

(** correlation.py:57-73.  With two arguments [a*b] has shape [(n,e,T)]; with one
    argument it has shape [(n,T)] and the sum [(n,)] is broadcast along the rows of
    [res[:,:,l]]. *)
Definition direct_lag n e T (a : 'M[R]_(n, T)) (b : 'M[R]_(e, T)) (l : nat) (i : 'I_n) (j : 'I_e) : R :=
  (\sum_(p <- zip (take (T - l) (row_seq a i)) (drop l (row_seq b j))) p.1 * p.2) / (T - l)%:R.

Definition correlation_direct_ND n e T (a : 'M[R]_(n, T)) (b : 'M[R]_(e, T)) (trunc : option nat)
    : res (seq 'M[R]_(n, e)) :=
  let L := len_trunc T trunc in
  let! r := wr (nseq L 0) 0 (\matrix_(i, j) direct_lag a b 0 i j) in
  for_ 1 L (fun l r => wr r l (\matrix_(i, j) direct_lag a b l i j)) r.

Definition correlation_direct_ND_single n T (a : 'M[R]_(n, T)) (trunc : option nat)
    : res (seq 'M[R]_n) :=
  let L := len_trunc T trunc in
  let! r := wr (nseq L 0) 0 (\matrix_(i, j) direct_lag a a 0 j j) in
  for_ 1 L (fun l r => wr r l (\matrix_(i, j) direct_lag a a l j j)) r.

End Correlation.
