(** * C72: position-dependent coloured noise. *)
From Coq Require Import Reals Lra.
From Coquelicot Require Import Complex.
From mathcomp Require Import all_ssreflect.
From Verif Require Import Base Colored ColoredProofs3 ColoredProofs4 PosColored PosColoredProofs.
Set Implicit Arguments.
Unset Strict Implicit.
Unset Printing Implicit Defensive.
Local Open Scope R_scope.

(** On a grid of times, a generator is built from every kernel of at least two samples; what it
    keeps for every basis function and component is the whole transform of the symmetrised
    kernel (the imaginary parts thrown away are zero): the time step times the cosine spectrum. *)
Theorem C72_spectra_partial (K : karr) (t : seq R) (dt : R) :
  (1 < k_len K)%N -> size t = k_len K -> grid t dt ->
  exists g, new_posgen K t = Ok g /\
  [/\ pg_dt g = dt, pg_basis g = k_basis K /\ pg_dim g = k_dim K
    & forall k d, (k < k_basis K)%N -> (d < k_dim K)%N ->
      (exists w, ft (map RtoC (sym_kernel (kcol K k d))) (sym_times t) = Ok (map RtoC (pg_ft g k d), w)) /\
      pg_ft g k d = mkseq (fun i => dt * spectrum (kcol K k d) i) (2 * (k_len K).-1).+1].
Proof.
move=> k2 st Hg; have [g [Eg [e1 _ e2 _ ef]]] := new_posgenE k2 st Hg; exists g; split=> //; split=> // k d kn dn.
rewrite ef //; split=> //; eexists; rewrite (@ft_spectrum _ t dt) ?size_kcol //.
Qed.
Print Assumptions C72_spectra_partial.

(** The noise cannot be generated from values of the basis, which are real numbers: every call
    raises [TypeError] (finding F71). *)
Theorem C72_real_refuted (K : karr) (t : seq R) (dt : R) (g : posgen) (E : earr) :
  (1 < k_len K)%N -> size t = k_len K -> grid t dt -> new_posgen K t = Ok g -> (0 < k_basis K * k_dim K)%N ->
  e_rows E = k_basis K -> (k_dim K <= e_cols E)%N -> e_complex E = false ->
  forall ind white, pos_generate g E ind white = Err TypeError.
Proof. by move=> *; apply: real_fails; eassumption. Qed.
Print Assumptions C72_real_refuted.

(** From the same values stored as complex numbers: every component is the sample at [ind] of a
    coloured noise (as of [ColoredNoiseGenerator]) whose kernel is the combination of the
    kernels of the basis functions. *)
Theorem C72_complex_partial (K : karr) (t : seq R) (dt : R) (g : posgen) (E : earr) (V : nat -> nat -> R) :
  (1 < k_len K)%N -> size t = k_len K -> grid t dt -> new_posgen K t = Ok g -> (0 < k_basis K * k_dim K)%N ->
  e_rows E = k_basis K -> (k_dim K <= e_cols E)%N -> (forall k l, e_at E k l = RtoC (V k l)) -> e_complex E ->
  let n := (2 * (k_len K).-1).+1 in
  forall ind white, (ind < n)%N -> (forall d, (d < k_dim K)%N -> size (nth [::] white d) = n) ->
  exists2 v, pos_generate g E ind white = Ok v & size v = k_dim K /\
    forall d, (d < k_dim K)%N -> exists h s,
      [/\ colored_filter (mkseq (fun i => rsum (k_basis K) (fun k => V k d * k_at K i k d)) (k_len K)) t = Ok h,
          colored_generate h dt (nth [::] white d) = Ok s & nth 0 v d = nth 0 s ind].
Proof. by move=> k2 st Hg Eg kd r c v cx n ind white il sw; exact: (complex_value k2 st Hg Eg kd r c v cx il sw). Qed.
Print Assumptions C72_complex_partial.

(** From sample 2 N - 1 on nothing is generated, for a kernel of N samples (finding F72). *)
Theorem C72_past_end_refuted (K : karr) (t : seq R) (dt : R) (g : posgen) (E : earr) (V : nat -> nat -> R) :
  (1 < k_len K)%N -> size t = k_len K -> grid t dt -> new_posgen K t = Ok g -> (0 < k_basis K * k_dim K)%N ->
  e_rows E = k_basis K -> (k_dim K <= e_cols E)%N -> (forall k l, e_at E k l = RtoC (V k l)) -> e_complex E ->
  let n := (2 * (k_len K).-1).+1 in
  forall ind white, (n <= ind)%N -> (forall d, (d < k_dim K)%N -> size (nth [::] white d) = n) ->
  pos_generate g E ind white = Err (if ind == n then OutOfBounds else ValueError).
Proof. by move=> k2 st Hg Eg kd r c v cx n ind white il sw; exact: (past_end k2 st Hg Eg kd r c v cx il sw). Qed.
Print Assumptions C72_past_end_refuted.

(** Noises of two calls are uncorrelated whatever the kernel, since each call draws its own
    white noise (finding F73). *)
Theorem C72_uncorrelated_refuted (K : karr) (t : seq R) (dt : R) (g : posgen)
    (Omega : Type) (L : (Omega -> R) -> Prop) (Ex : (Omega -> R) -> R) (w : Omega -> seq R) E1 E2 i1 i2 :
  (1 < k_len K)%N -> size t = k_len K -> grid t dt -> new_posgen K t = Ok g -> (0 < k_basis K * k_dim K)%N ->
  let n := (2 * (k_len K).-1).+1 in
  expect L Ex -> white_seq L Ex (2 * (k_dim K * n)) w -> fits K E1 -> fits K E2 -> (i1 < n)%N -> (i2 < n)%N ->
  exists v1 v2 : Omega -> seq R,
    [/\ forall x, pos_generate g E1 i1 (draws n (k_dim K) 0 (w x)) = Ok (v1 x),
        forall x, pos_generate g E2 i2 (draws n (k_dim K) (k_dim K * n) (w x)) = Ok (v2 x)
      & forall d d', (d < k_dim K)%N -> (d' < k_dim K)%N ->
        L (fun x => nth 0 (v1 x) d * nth 0 (v2 x) d') /\ Ex (fun x => nth 0 (v1 x) d * nth 0 (v2 x) d') = 0].
Proof. by move=> k2 st Hg Eg kd n HE Hw f1 f2 l1 l2; exact: (two_calls k2 st Hg Eg kd HE Hw f1 f2 l1 l2). Qed.
Print Assumptions C72_uncorrelated_refuted.

(** A kernel 11, 7 for each of two functions of one component; white noise for two calls. *)
Definition two_kern : karr := KArr 2 2 1 (fun i _ _ => nth 0 kern i).
Definition two_E : earr := EArr 2 1 true (fun k _ => RtoC (INR k)).
Example C72_example : exists2 g, new_posgen two_kern tims = Ok g &
  [/\ grid tims 1, fits two_kern two_E
    & expect (fun _ => True) (average 6) /\ white_seq (fun _ => True) (average 6) (2 * (k_dim two_kern * 3)) (spikes 6)].
Proof.
have Hg : grid tims 1 by split; [lra | exact: tims_grid].
have [g [Eg _]] := @new_posgenE two_kern tims 1 erefl erefl Hg; exists g => //; split=> //.
by split; [exact: average_expect | exact: spikes_white].
Qed.
