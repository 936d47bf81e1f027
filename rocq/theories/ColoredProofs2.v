(** * Inversion of the transform and the square of the filter. *)
From Coq Require Import Reals Lra Lia ZArith.
From Coquelicot Require Import Complex.
From mathcomp Require Import all_ssreflect zify.
From Verif Require Import Base Colored ColoredProofs.
Set Implicit Arguments.
Unset Strict Implicit.
Unset Printing Implicit Defensive.
Local Open Scope R_scope.

Notation Cnth := (nth (RtoC 0)).

Lemma Req_em_F (A : Type) x y (a b : A) : x <> y -> (if Req_EM_T x y then a else b) = b.
Proof. by case: Req_EM_T. Qed.

(** Frequencies are whole multiples of [2 pi / (n dt)]. *)
Definition freq (n k : nat) : Z := if (k <= n.-1 %/ 2)%N then Z.of_nat k else (Z.of_nat k - Z.of_nat n)%Z.

Lemma freqE n k : (k < n)%N -> nth 0 (fftfreq n) k = IZR (freq n k) / INR n.
Proof.
move=> kn; rewrite nth_mkseq // /freq; case: leq; rewrite -?INR_IZR_INZ //.
by rewrite minus_IZR -!INR_IZR_INZ.
Qed.

Lemma e_freq n k d : (0 < n)%N -> e n (freq n k * d) = e n (Z.of_nat k * d).
Proof.
move=> n0; rewrite /freq; case: leq => //; rewrite -[RHS](@e_period n n0 _ (- d)); congr e; lia.
Qed.

Lemma ftE f t : (0 < size f)%N -> (1 < size t)%N -> nth 0 t 1 - nth 0 t 0 <> 0 ->
  let t0 := nth 0 t 0 in let dt := nth 0 t 1 - nth 0 t 0 in
  exists gw, [/\ ft f t = Ok gw, size gw.1 = size f /\ size gw.2 = size f,
    forall k, (k < size f)%N -> nth 0 gw.2 k = 2 * PI * (IZR (freq (size f) k) / INR (size f)) / dt
    & forall k, (k < size f)%N -> Cnth gw.1 k = Cmult (Cnth (fft f) k) (Cmult (RtoC dt) (cis (- (nth 0 gw.2 k * t0))))].
Proof.
move=> f0 st dt0 t0 dt; rewrite /ft (gtn_eqF f0) (rdE 0 st) (rdE 0 (ltnW st)) /= Req_em_F //.
eexists; split; first by reflexivity.
- by rewrite !size_map size_zip !size_map ?size_iota minnn.
- by move=> k kf; rewrite /= (nth_map 0) ?size_fftfreq // freqE.
move=> k kf; rewrite /= (nth_map (RtoC 0, 0)) ?size_zip ?size_map ?size_fft ?size_fftfreq ?size_iota ?minnn //.
by rewrite nth_zip ?size_map ?size_fft ?size_fftfreq ?size_iota.
Qed.

Lemma iftE g w t : (1 < size g)%N -> size w = size g -> (0 < size t)%N ->
  exists2 r, ift g w t = Ok r & size r = size g /\
    forall m, (m < size g)%N -> Cnth r m =
      Cmult (Cmult (RtoC (/ INR (size g))) (csum (size g) (fun k => Cmult (Cmult (Cnth g k) (cis (nth 0 w k * nth 0 t 0)))
         (e (size g) (Z.of_nat k * Z.of_nat m)))))
        (RtoC (INR (size g) * (nth 0 w 1 - nth 0 w 0) / (2 * PI))).
Proof.
move=> sg sw st; rewrite /ift (rdE 0 st) /= sw eqxx /=.
have s2 : size [seq Cmult p.1 (cis (p.2 * nth 0 t 0)) | p <- zip g w] = size g.
  by rewrite size_map size_zip sw minnn.
rewrite s2 (gtn_eqF (ltnW sg)) (rdE 0) ?sw // (rdE 0) ?sw ?(ltnW sg) //=.
eexists; first by reflexivity.
split=> [|m mg]; first by rewrite size_map size_ifft.
rewrite (nth_map (RtoC 0)) ?size_ifft ?s2 // ifftE ?s2 //; congr (Cmult (Cmult _ _) _).
apply: csum_ext => k kg; congr Cmult; rewrite (nth_map (RtoC 0, 0)) ?size_zip ?sw ?minnn //.
by rewrite nth_zip ?sw.
Qed.

Definition ft_ift f t := let! gw := ft f t in ift gw.1 gw.2 t.

Lemma freq_step n : (1 < n)%N -> IZR (freq n 1) - IZR (freq n 0) = if (n == 2)%N then -1 else 1.
Proof.
move=> n1; rewrite /freq /=; case: (n =P 2%N) => [->|n2] /=; first by lra.
by rewrite ifT; [lra | lia].
Qed.

Lemma cis_inv x : Cmult (cis (- x)) (cis x) = RtoC 1.
Proof. by rewrite -cis_plus Rplus_opp_l cis_0. Qed.

Lemma ift_ft f t : (1 < size f)%N -> (1 < size t)%N -> nth 0 t 1 - nth 0 t 0 <> 0 ->
  ft_ift f t = Ok (if size f == 2%N then map Copp f else f).
Proof.
move=> sf st dt0; have f0 := ltnW sf; rewrite /ft_ift; have [gw [-> [sg sw] Hw Hg]] := ftE f0 st dt0; rewrite /=.
have sg1 : (1 < size gw.1)%N by rewrite sg.
have sw1 : size gw.2 = size gw.1 by rewrite sg.
have [r -> [sr Hr]] := iftE sg1 sw1 (ltnW st); congr Ok; rewrite sg in sr Hr.
have n0 : INR (size f) <> 0 by apply: n_neq0.
apply: (@eq_from_nth _ (RtoC 0)); first by rewrite sr; case: eqP; rewrite ?size_map.
move=> m; rewrite sr => mf; rewrite Hr //.
rewrite (csum_ext (g := fun k => Cmult (RtoC (nth 0 t 1 - nth 0 t 0)) (Cmult (csum (size f) (fun j => Cmult (Cnth f j)
      (e (size f) (- (Z.of_nat k * Z.of_nat j))))) (e (size f) (Z.of_nat k * Z.of_nat m))))); last first.
  move=> k kf; rewrite Hg // fftE //; set S := csum _ _.
  have E := cis_inv (nth 0 gw.2 k * nth 0 t 0).
  transitivity (Cmult (Cmult (Cmult S (RtoC (nth 0 t 1 - nth 0 t 0))) (Cmult (cis (- (nth 0 gw.2 k * nth 0 t 0))) (cis (nth 0 gw.2 k * nth 0 t 0)))) (e (size f) (Z.of_nat k * Z.of_nat m))).
    ring.
  rewrite E; ring.
rewrite csum_scal; set A := csum _ _.
transitivity (Cmult (Cmult (RtoC (/ INR (size f))) A) (Cmult (RtoC (nth 0 t 1 - nth 0 t 0)) (RtoC (INR (size f) * (nth 0 gw.2 1 - nth 0 gw.2 0) / (2 * PI))))).
  ring.
rewrite /A inv_core // -RtoC_mult !Hw //.
have pi := PI_neq0.
have -> : (nth 0 t 1 - nth 0 t 0) * (INR (size f) * (2 * PI * (IZR (freq (size f) 1) / INR (size f)) / (nth 0 t 1 - nth 0 t 0) - 2 * PI * (IZR (freq (size f) 0) / INR (size f)) / (nth 0 t 1 - nth 0 t 0)) / (2 * PI))
   = IZR (freq (size f) 1) - IZR (freq (size f) 0) by field.
rewrite freq_step //; case: eqP => s2; last by rewrite Cmult_1_r.
rewrite (nth_map (RtoC 0)) // (_ : RtoC (-1) = Copp (RtoC 1)); first by ring.
by rewrite /Copp /RtoC /=; congr pair; ring.
Qed.

Lemma ift_ft_one x t : (1 < size t)%N -> nth 0 t 1 - nth 0 t 0 <> 0 -> ft_ift [:: x] t = Err OutOfBounds.
Proof.
move=> st dt0; rewrite /ft_ift; have [gw [-> [sg sw] _ _]] := @ftE [:: x] t erefl st dt0; rewrite /=.
rewrite /ift (rdE 0 (ltnW st)) /= sg sw /= size_map size_zip sg sw /= (@rd_oob _ gw.2) ?sw //.
Qed.

(** ** Square roots *)
Lemma csqrt_real x : csqrt (RtoC x) = (sqrt (Rmax x 0), sqrt (Rmax (- x) 0)).
Proof.
rewrite /csqrt /= Cmod_R; case: Rle_dec => h0; last by case: (h0 (Rle_refl 0)).
rewrite Rmult_1_l; congr (sqrt _, sqrt _).
- case: (Rle_dec 0 x) => h; first by rewrite Rabs_pos_eq // Rmax_left //; lra.
  by rewrite Rabs_left ?Rmax_right; lra.
- case: (Rle_dec 0 x) => h; first by rewrite Rabs_pos_eq // Rmax_right; lra.
  by rewrite Rabs_left ?Rmax_left; lra.
Qed.
