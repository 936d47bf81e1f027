(** * Property C46 and the part of C45 about the coloured noise generator. *)
From Coq Require Import Reals Lra Lia ZArith.
From Coquelicot Require Import Complex.
From mathcomp Require Import all_ssreflect zify.
From Verif Require Import Base Colored ColoredProofs ColoredProofs2 ColoredProofs3 ColoredProofs4.
Set Implicit Arguments.
Unset Strict Implicit.
Unset Printing Implicit Defensive.
Local Open Scope R_scope.

(** ** C46 *)
Theorem C46_inverse_partial (f : seq C) (t : seq R) :
  (2 < size f)%N -> (1 < size t)%N -> nth 0 t 1 - nth 0 t 0 <> 0 ->
  (let! gw := ft f t in ift gw.1 gw.2 t) = Ok f.
Proof. by move=> sf st dt; have := ift_ft (ltnW sf) st dt; rewrite (gtn_eqF sf). Qed.
Print Assumptions C46_inverse_partial.

(** Two samples: the sign is lost. One sample: rejected. *)
Theorem C46_short_refuted (t : seq R) : (1 < size t)%N -> nth 0 t 1 - nth 0 t 0 <> 0 ->
  (forall x y, (let! gw := ft [:: x; y] t in ift gw.1 gw.2 t) = Ok [:: Copp x; Copp y]) /\
  (forall x, (let! gw := ft [:: x] t in ift gw.1 gw.2 t) = Err OutOfBounds).
Proof.
move=> st dt; split=> [x y|x]; first by rewrite -/(ft_ift [:: x; y] t) ift_ft.
by rewrite -/(ft_ift [:: x] t) ift_ft_one.
Qed.
Print Assumptions C46_short_refuted.

(** On the circle of the 2 N - 1 samples the filter convolved with itself is the part of the
    kernel with positive spectrum; the kernel itself when the spectrum is nonnegative. *)
Theorem C46_filter_partial (kernel t : seq R) dt : (1 < size kernel)%N -> size t = size kernel -> 0 < dt ->
  (forall i, (i < size t)%N -> nth 0 t i = INR i * dt) ->
  let c := (size kernel).-1 in let n := (2 * c).+1 in
  exists2 h, colored_filter kernel t = Ok h &
    [/\ size h = n,
        forall m, (m < n)%N -> nth 0 h (2 * c - m) = nth 0 h m,
        forall m, (m < n)%N ->
          dt * rsum n (fun a => nth 0 h a * nth 0 h ((m + c + n - a) %% n))
          = / INR n * rsum n (fun k => Rmax (spectrum kernel k) 0 * cos (2 * PI * INR k * (INR m - INR c) / INR n))
      & (forall k, (k < n)%N -> 0 <= spectrum kernel k) ->
        forall m, (m < n)%N ->
          dt * rsum n (fun a => nth 0 h a * nth 0 h ((m + c + n - a) %% n)) = nth 0 kernel ((m - c) + (c - m))].
Proof.
move=> k2 st d0 Ht c n; have [h Eh [sh Hh]] := filter_square k2 st d0 Ht; exists h => //.
have nz : INR n <> 0 by apply: n_neq0.
split=> //; first exact: (filter_even k2 st d0 Ht Eh).
  move=> m mn; have := congr1 Re (Hh m mn); rewrite Re_scal csum_Re => E.
  apply: etrans E _; congr Rmult; apply: rsum_ext => k kn.
  rewrite Re_scal Re_e (specE k2 st); congr (_ * cos _).
  by rewrite mult_IZR minus_IZR -!INR_IZR_INZ /Rdiv /c; congr Rmult; ring.
move=> pos m mn; have [h' E [_ H]] := filter_square_pos k2 st d0 Ht pos.
by move: E; rewrite Eh => -[->]; rewrite H // (ksE k2 st).
Qed.
Print Assumptions C46_filter_partial.

(** The generator convolves on the line, not on the circle: the filter 1 3 1 of the kernel 11 7
    (spectrum 25 4 4, time step 1) gives 6 11 6 instead of 7 11 7. *)
Theorem C46_linear_refuted : exists (kernel t : seq R) h,
  [/\ colored_filter kernel t = Ok h, forall k, (k < size h)%N -> 0 <= spectrum kernel k,
      sym_kernel kernel = [:: 7; 11; 7]
    & convolve_same h h = Ok [:: 6; 11; 6]].
Proof.
exists kern, tims, [:: 1; 3; 1]; split=> //; first exact: kern_filter.
  by move=> k k3; rewrite kern_spec //; case: eqP => _; lra.
rewrite /convolve_same /= /mkseq /=; congr Ok; rewrite /conv_full /=.
by congr [:: _; _; _]; ring.
Qed.
Print Assumptions C46_linear_refuted.

Example C46_example : [/\ (1 < size kern)%N, size tims = size kern,
  forall i, (i < size tims)%N -> nth 0 tims i = INR i * 1
  & forall k, (k < 3)%N -> 0 <= spectrum kern k].
Proof.
split=> // [i|k k3]; first exact: tims_grid.
by rewrite kern_spec //; case: eqP => _; lra.
Qed.

(** ** C45, coloured noise *)

(** Away from both ends the covariance is the autocorrelation of the filter (which on the
    circle would be the kernel). *)
Theorem C45_colored_partial (Omega : Type) (L : (Omega -> R) -> Prop) (Ex : (Omega -> R) -> R) : expect L Ex ->
  forall h c dt len (w : Omega -> seq R), size h = (2 * c).+1 -> (size h <= len)%N -> 0 <= dt -> white_seq L Ex len w ->
  exists2 eta : Omega -> seq R, forall x, colored_generate h dt (w x) = Ok (eta x) &
    [/\ forall x, size (eta x) = len,
        forall i, (i < len)%N -> L (fun x => nth 0 (eta x) i) /\ Ex (fun x => nth 0 (eta x) i) = 0
      & forall i d, (c <= i)%N -> (i + c < len)%N -> (i + d < len)%N ->
          L (fun x => nth 0 (eta x) i * nth 0 (eta x) (i + d)) /\
          Ex (fun x => nth 0 (eta x) i * nth 0 (eta x) (i + d))
            = dt * rsum (size h) (fun a => nth 0 h a * nth 0 h (a + d))].
Proof.
move=> HE h c dt len w sh hl d0 Hw.
have h0 : (0 < size h)%N by rewrite sh.
have l0 : (0 < len)%N by apply: leq_trans hl.
have [eta He [H1 H2 H3]] := colored_cov HE l0 h0 d0 Hw; exists eta => //; split=> // i d ci il idl.
have [l ->] := H3 i (i + d)%N (leq_ltn_trans (leq_addr c i) il) idl; split=> //.
by rewrite (@tap_interior h c).
Qed.
Print Assumptions C45_colored_partial.

(** The kernel 11 7: in the middle of the series the covariance at lag one is 6 instead of 7 and
    at lag two 1 instead of 0; the first sample has variance 10 instead of 11; and a series of
    one sample has variance 1. *)
Theorem C45_colored_refuted : exists (kernel t : seq R) h, [/\ colored_filter kernel t = Ok h,
  kernel = [:: 11; 7], t = [:: 0; 1]
  & forall (Omega : Type) (L : (Omega -> R) -> Prop) (Ex : (Omega -> R) -> R) len (w : Omega -> seq R),
    expect L Ex -> white_seq L Ex len w -> (len = 1%N \/ (5 <= len)%N) ->
    exists2 eta, forall x, colored_generate h 1 (w x) = Ok (eta x) &
      if len == 1%N then Ex (fun x => nth 0 (eta x) 0 * nth 0 (eta x) 0) = 1
      else [/\ Ex (fun x => nth 0 (eta x) 0 * nth 0 (eta x) 0) = 10, Ex (fun x => nth 0 (eta x) 2 * nth 0 (eta x) 2) = 11,
               Ex (fun x => nth 0 (eta x) 2 * nth 0 (eta x) 3) = 6 & Ex (fun x => nth 0 (eta x) 2 * nth 0 (eta x) 4) = 1]].
Proof.
pose h3 : seq R := [:: 1; 3; 1]; exists kern, tims, h3; split=> //; first exact: kern_filter.
move=> Omega L Ex len w HE Hw Hl; have l0 : (0 < len)%N by lia.
have [eta He [H1 H2 H3]] := @colored_cov _ _ _ HE h3 1 len w l0 erefl Rle_0_1 Hw; exists eta => //.
case: (len =P 1%N) => [E|n1].
  by subst len; have [_ ->] := H3 0%N 0%N erefl erefl; rewrite /= /tap /=; ring.
have l5 : (5 <= len)%N by lia.
have hs : (size h3 <= len)%N by rewrite /=; lia.
have I d : (2 + d < len)%N -> Ex (fun x => nth 0 (eta x) 2 * nth 0 (eta x) (2 + d)%N)
    = 1 * rsum 3 (fun a => nth 0 h3 a * nth 0 h3 (a + d)).
  move=> dl; have [_ ->] := H3 2%N (2 + d)%N (leq_trans (erefl : (2 < 5)%N) l5) dl.
  by rewrite (@tap_interior h3 1) //; lia.
split; last 3 first.
- by rewrite (I 0%N) /=; [ring | lia].
- by rewrite (I 1%N) /=; [ring | lia].
- by rewrite (I 2%N) /=; [ring | lia].
have [_ ->] := H3 0%N 0%N l0 l0.
rewrite (_ : len = 2 + (len - 2))%N; last by lia.
rewrite rsum_split [X in _ + X](rsum_ext (g := fun _ => 0)) ?rsum_0; last first.
  move=> k _; rewrite /tap (_ : (minn _ _).-1 %/ 2 = 1)%N; last by rewrite /=; lia.
  by rewrite /= Rmult_0_l.
rewrite /= /tap (_ : (minn _ _).-1 %/ 2 = 1)%N; last by rewrite /=; lia.
by rewrite /=; ring.
Qed.
Print Assumptions C45_colored_refuted.

(** White noise of every length exists. *)
Example C45_colored_example N : (0 < N)%N ->
  expect (fun _ => True) (average N) /\ white_seq (fun _ => True) (average N) N (spikes N).
Proof. by move=> N0; split; [exact: average_expect | exact: spikes_white]. Qed.
