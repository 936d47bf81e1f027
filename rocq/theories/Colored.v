(** * Fourier helpers and coloured noise: VolterraBasis/gle_integrate.py:1-63.

    Over Coq's real numbers, complex numbers being pairs (Coquelicot).  One diagonal component
    [kernel[:, d, d]] of the generator is modelled: the loop over [d] treats them separately.
    The white noise is a parameter.  [nan] is [Err ZeroDivision]. *)
From Coq Require Import Reals.
From Coquelicot Require Import Complex.
From mathcomp Require Import all_ssreflect.
From Verif Require Import Base.
Set Implicit Arguments.
Unset Strict Implicit.
Unset Printing Implicit Defensive.
Local Open Scope R_scope.

(** Finite sums [f 0 + ... + f (n-1)]. *)
Fixpoint csum (n : nat) (f : nat -> C) : C := if n is n'.+1 then Cplus (csum n' f) (f n') else RtoC 0.
Fixpoint rsum (n : nat) (f : nat -> R) : R := if n is n'.+1 then rsum n' f + f n' else 0.

(** [exp(i x)]. *)
Definition cis (x : R) : C := (cos x, sin x).

(** [np.fft.fft], [np.fft.ifft] of [n] values, by definition. *)
Definition fft (f : seq C) : seq C :=
  let n := size f in
  mkseq (fun k => csum n (fun m => Cmult (nth (RtoC 0) f m) (cis (- (2 * PI * INR k * INR m / INR n))))) n.
Definition ifft (g : seq C) : seq C :=
  let n := size g in
  mkseq (fun m => Cmult (RtoC (/ INR n)) (csum n (fun k => Cmult (nth (RtoC 0) g k) (cis (2 * PI * INR k * INR m / INR n))))) n.

(** [np.fft.fftfreq(n)]: 0, ..., (n-1)//2, -(n//2), ..., -1, over n. *)
Definition fftfreq (n : nat) : seq R :=
  mkseq (fun k => (if (k <= n.-1 %/ 2)%N then INR k else INR k - INR n) / INR n) n.

(** ft, lines 5-9. *)
Definition ft (f : seq C) (t : seq R) : res (seq C * seq R) :=
  if size f == 0%N then Err ZeroDivision              (* fftfreq(0) *)
  else
  let! t1 := rd t 1 in
  let! t0 := rd t 0 in
  if Req_EM_T (t1 - t0) 0 then Err ZeroDivision
  else
  let w := map (fun x => 2 * PI * x / (t1 - t0)) (fftfreq (size f)) in
  let g := fft f in
  let g := map (fun p => Cmult p.1 (Cmult (RtoC (t1 - t0)) (cis (- (p.2 * t0))))) (zip g w) in
  Ok (g, w).

(** ift, lines 12-16 (the argument [f] is overwritten; the callers do not use it again). *)
Definition ift (f : seq C) (w t : seq R) : res (seq C) :=
  let! t0 := rd t 0 in
  if size f != size w then Err ValueError
  else
  let f := map (fun p => Cmult p.1 (cis (p.2 * t0))) (zip f w) in
  if size f == 0%N then Err ValueError
  else
  let g := ifft f in
  let! w1 := rd w 1 in
  let! w0 := rd w 0 in
  Ok (map (fun x => Cmult x (RtoC (INR (size f) * (w1 - w0) / (2 * PI)))) g).

(** [np.sqrt] of a complex number (principal value). *)
Definition csqrt (z : C) : C :=
  let m := Cmod z in
  (sqrt ((m + Re z) / 2), (if Rle_dec 0 (Im z) then 1 else -1) * sqrt ((m - Re z) / 2)).

(** [a[:0:-1]] and the symmetrised arrays, lines 47 and 52. *)
Definition mirror (a : seq R) : seq R := rev (drop 1 a).
Definition sym_times (t : seq R) : seq R := map Ropp (mirror t) ++ t.
Definition sym_kernel (k : seq R) : seq R := mirror k ++ k.

(** __init__, lines 38-55, for one component: the filter. *)
Definition colored_filter (kernel t : seq R) : res (seq R) :=
  let t_sym := sym_times t in
  let! gw := ft (map RtoC (sym_kernel kernel)) t_sym in
  let! s := ift (map csqrt gw.1) gw.2 t_sym in
  let s := map Re s in
  if size s == size t_sym then Ok s
  else if size s == 1%N then Ok (nseq (size t_sym) (nth 0 s 0))
  else Err ValueError.

(** [np.convolve(a, v, mode="same")]: the middle of the full convolution. *)
Definition conv_full (a v : seq R) (k : nat) : R :=
  rsum (size a) (fun j => if (j <= k)%N then nth 0 a j * nth 0 v (k - j) else 0).
Definition convolve_same (a v : seq R) : res (seq R) :=
  if (size a == 0%N) || (size v == 0%N) then Err ValueError
  else Ok (mkseq (fun i => conv_full a v (i + (minn (size a) (size v)).-1 %/ 2)) (maxn (size a) (size v))).

(** generate, lines 57-62, for one component; [white] has the requested size. *)
Definition colored_generate (sqk : seq R) (dt : R) (white : seq R) : res (seq R) :=
  let! c := convolve_same white sqk in
  if Rle_dec 0 dt then Ok (map (fun x => x * sqrt dt) (take (size white) c)) else Err ZeroDivision.
