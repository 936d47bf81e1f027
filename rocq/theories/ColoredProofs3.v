(** * The filter of the coloured noise generator. *)
From Coq Require Import Reals Lra Lia ZArith.
From Coquelicot Require Import Complex.
From mathcomp Require Import all_ssreflect zify.
From Verif Require Import Base Colored ColoredProofs ColoredProofs2.
Set Implicit Arguments.
Unset Strict Implicit.
Unset Printing Implicit Defensive.
Local Open Scope R_scope.

Lemma rsum_split a b f : rsum (a + b) f = rsum a f + rsum b (fun k => f (a + k)%N).
Proof. by elim: b => [|b IH]; rewrite ?addn0 ?addnS /= ?IH; ring. Qed.
Lemma rsum_Sl n f : rsum n.+1 f = f 0%N + rsum n (fun k => f k.+1).
Proof. by elim: n => [|n IH]; [rewrite /=; ring | rewrite [LHS]/= -/(rsum n.+1 f) IH /=; ring]. Qed.
Lemma rsum_rev n f : rsum n f = rsum n (fun k => f (n.-1 - k)%N).
Proof.
elim: n f => // n IH f; rewrite rsum_Sl [RHS]/= subnn IH Rplus_comm; congr Rplus.
by apply: rsum_ext => k kn; congr f; lia.
Qed.
Lemma rsum_even c (G : nat -> R) :
  rsum (2 * c).+1 (fun m => G ((m - c) + (c - m))%N) = G 0%N + 2 * rsum c (fun j => G j.+1).
Proof.
have -> : ((2 * c).+1 = c + c.+1)%N by lia.
rewrite rsum_split rsum_rev rsum_Sl.
rewrite (rsum_ext (g := fun j => G j.+1)); last by move=> k kc; congr G; lia.
rewrite (rsum_ext (n := c) (g := fun j => G j.+1) (f := fun k => G ((c + k.+1 - c) + (c - (c + k.+1)))%N)); last by move=> k kc; congr G; lia.
rewrite (_ : ((c + 0 - c) + (c - (c + 0)) = 0)%N); last by lia.
ring.
Qed.

Lemma Cmult_conj a b : Cconj (Cmult a b) = Cmult (Cconj a) (Cconj b).
Proof. by case: a b => [x y] [z w]; rewrite /Cconj /Cmult /=; congr pair; ring. Qed.

Lemma Re_scal x z : Re (Cmult (RtoC x) z) = x * Re z.
Proof. by rewrite /Re /Cmult /RtoC /=; ring. Qed.

(** The spectrum of a kernel: cosine transform of the even extension. *)
Definition spectrum (kernel : seq R) (k : nat) : R :=
  let c := (size kernel).-1 in
  nth 0 kernel 0 + 2 * rsum c (fun j => nth 0 kernel j.+1 * cos (2 * PI * INR k * INR j.+1 / INR (2 * c).+1)).

Section Filter.
Variables (kernel t : seq R) (dt : R).
Hypothesis k2 : (1 < size kernel)%N.
Hypothesis st : size t = size kernel.
Hypothesis dt0 : 0 < dt.
Hypothesis Ht : forall i, (i < size t)%N -> nth 0 t i = INR i * dt.

Let c := (size kernel).-1.
Let n := (2 * c).+1.
Let ks := sym_kernel kernel.

Lemma n0 : (0 < n)%N. Proof. by []. Qed.
Let n0' : (0 < n)%N := n0.

Lemma size_sym (a : seq R) : (0 < size a)%N -> size (sym_kernel a) = (2 * (size a).-1).+1.
Proof. by move=> a0; rewrite size_cat size_rev size_drop; lia. Qed.
Lemma size_ks : size ks = n.
Proof. by rewrite size_sym //; lia. Qed.
Lemma nth_sym (a : seq R) m : (0 < size a)%N -> (m < (2 * (size a).-1).+1)%N ->
  nth 0 (sym_kernel a) m = nth 0 a ((m - (size a).-1) + ((size a).-1 - m))%N.
Proof.
move=> a0 ma; rewrite nth_cat size_rev size_drop.
case: (ltnP m (size a - 1)) => h; last by congr nth; lia.
by rewrite nth_rev ?size_drop // nth_drop; congr nth; lia.
Qed.
Lemma ksE m : (m < n)%N -> nth 0 ks m = nth 0 kernel ((m - c) + (c - m))%N.
Proof. by move=> mn; rewrite nth_sym //; lia. Qed.

Lemma size_ts : size (sym_times t) = n.
Proof. by rewrite size_cat size_map size_rev size_drop st /n /c; lia. Qed.
Lemma ts0 : nth 0 (sym_times t) 0 = - (INR c * dt).
Proof.
rewrite nth_cat size_map size_rev size_drop st ifT; last by lia.
rewrite (nth_map 0) ?size_rev ?size_drop ?st ?nth_rev ?size_drop ?st; try lia.
rewrite nth_drop Ht ?st; last by lia.
by congr (- (INR _ * _)); rewrite /c; lia.
Qed.
Lemma ts1 : nth 0 (sym_times t) 1 = - (INR c.-1 * dt).
Proof.
rewrite nth_cat size_map size_rev size_drop st; case: (ltnP 1 (size kernel - 1)) => h.
  rewrite (nth_map 0) ?size_rev ?size_drop ?st ?nth_rev ?size_drop ?st; try lia.
  rewrite nth_drop Ht ?st; last by lia.
  by congr (- (INR _ * _)); rewrite /c; lia.
have -> : c.-1 = 0%N by rewrite /c; lia.
rewrite Ht ?st; last by lia.
by rewrite (_ : (1 - (size kernel - 1) = 0)%N) /=; [ring | lia].
Qed.
Lemma ts_dt : nth 0 (sym_times t) 1 - nth 0 (sym_times t) 0 = dt.
Proof.
rewrite ts0 ts1; have -> : INR c = INR c.-1 + 1 by rewrite -S_INR; congr INR; rewrite /c; lia.
ring.
Qed.

(** Transform centred on the middle sample. *)
Definition S (k : Z) : C := csum n (fun m => Cmult (RtoC (nth 0 ks m)) (e n (- (k * (Z.of_nat m - Z.of_nat c))))).
Definition spec (k : Z) : R := Re (S k).

Lemma S_conj k : Cconj (S k) = S k.
Proof.
rewrite /S csum_conj [RHS]csum_rev; apply: csum_ext => m mn.
rewrite Cmult_conj -e_opp // (_ : Cconj (RtoC _) = RtoC (nth 0 ks m)); last by rewrite /Cconj /= Ropp_0.
have mn' : (m <= 2 * c)%N by [].
rewrite !ksE; try by rewrite /n /=; lia.
congr (Cmult (RtoC (nth _ _ _)) (e _ _)); rewrite /n /=; first by lia.
rewrite (_ : Z.of_nat (2 * c - m) - Z.of_nat c = - (Z.of_nat m - Z.of_nat c))%Z; [ring | lia].
Qed.
Lemma real_of (z : C) : Cconj z = z -> z = RtoC (Re z).
Proof. by case: z => a b; rewrite /Cconj /RtoC /= => -[h]; congr pair; lra. Qed.
Lemma S_real k : S k = RtoC (spec k).
Proof. by apply: real_of; exact: S_conj. Qed.
Lemma Re_e d : Re (e n d) = cos (2 * PI * IZR d / INR n). Proof. by []. Qed.
Lemma S_even k : S (- k) = S k.
Proof.
rewrite -[RHS]S_conj /S csum_conj; apply: csum_ext => m mn.
rewrite Cmult_conj -e_opp // (_ : Cconj (RtoC _) = RtoC (nth 0 ks m)); last by rewrite /Cconj /= Ropp_0.
by congr (Cmult _ (e _ _)); lia.
Qed.
Lemma S_period k q : S (k + Z.of_nat n * q) = S k.
Proof.
apply: csum_ext => m mn; congr Cmult.
rewrite -[RHS](@e_period n n0' _ (- (q * (Z.of_nat m - Z.of_nat c)))); congr e; ring.
Qed.
Lemma spec_even k : spec (- k) = spec k. Proof. by rewrite /spec S_even. Qed.
Lemma spec_period k : spec (k + Z.of_nat n) = spec k.
Proof. by rewrite /spec -[in RHS](S_period k 1); congr (Re (S _)); lia. Qed.

Lemma specE k : spec (Z.of_nat k) = spectrum kernel k.
Proof.
rewrite /spec /S csum_Re /spectrum -/c.
pose G j := nth 0 kernel j * cos (2 * PI * INR k * INR j / INR n).
rewrite (rsum_ext (g := fun m => G ((m - c) + (c - m))%N)) => [|m mn].
  by rewrite rsum_even /G /= Rmult_0_r /Rdiv Rmult_0_l cos_0 Rmult_1_r.
rewrite ksE // /G Re_scal Re_e; congr Rmult.
rewrite opp_IZR mult_IZR -INR_IZR_INZ.
case: (leqP m c) => h.
  rewrite (_ : ((m - c) + (c - m) = c - m)%N); last by lia.
  congr cos; rewrite (_ : IZR (Z.of_nat m - Z.of_nat c) = - INR (c - m)); last by rewrite INR_IZR_INZ -opp_IZR; congr IZR; lia.
  by field; apply: n_neq0.
rewrite (_ : ((m - c) + (c - m) = m - c)%N); last by lia.
rewrite -cos_neg; congr cos; rewrite (_ : IZR (Z.of_nat m - Z.of_nat c) = INR (m - c)); last by rewrite INR_IZR_INZ; congr IZR; lia.
by field; apply: n_neq0.
Qed.

(** Synthesis from a real, even, periodic spectrum. *)
Definition H (r : Z -> R) (s : Z) : C := csum n (fun k => Cmult (RtoC (r (Z.of_nat k))) (e n (Z.of_nat k * s))).

Section Synth.
Variable r : Z -> R.
Hypothesis r_even : forall k, r (- k) = r k.
Hypothesis r_period : forall k, r (k + Z.of_nat n) = r k.

Lemma H_conj s : Cconj (H r s) = H r s.
Proof.
pose F d := Cmult (RtoC (r d)) (e n (d * s)).
have PF : periodic n F.
  by move=> d; rewrite /F r_period; congr Cmult; rewrite -[RHS](@e_period n n0' _ s); congr e; ring.
rewrite -[RHS](@sum_opp n n0' F PF) /H csum_conj; apply: csum_ext => k _.
rewrite Cmult_conj -e_opp // /F r_even (_ : Cconj (RtoC _) = RtoC (r (Z.of_nat k))); last by rewrite /Cconj /= Ropp_0.
by congr (Cmult _ (e _ _)); lia.
Qed.
Lemma H_period s q : H r (s + Z.of_nat n * q) = H r s.
Proof.
apply: csum_ext => k _; congr Cmult.
rewrite -[RHS](@e_period n n0' _ (Z.of_nat k * q)); congr e; ring.
Qed.

Lemma H_conv m : csum n (fun a => Cmult (H r (Z.of_nat a - Z.of_nat c)) (H r (m - Z.of_nat a)))
  = Cmult (RtoC (INR n)) (csum n (fun k => Cmult (RtoC (r (Z.of_nat k) * r (Z.of_nat k))) (e n (Z.of_nat k * (m - Z.of_nat c))))).
Proof.
pose T a k l := Cmult (Cmult (RtoC (r (Z.of_nat k))) (RtoC (r (Z.of_nat l))))
   (Cmult (e n (Z.of_nat l * m - Z.of_nat k * Z.of_nat c)) (e n (Z.of_nat a * (Z.of_nat k - Z.of_nat l)))).
rewrite (csum_ext (g := fun a => csum n (fun k => csum n (fun l => T a k l)))); last first.
  move=> a _; rewrite {1}/H -csum_scalr; apply: csum_ext => k _; rewrite /H -csum_scal; apply: csum_ext => l _.
  rewrite /T -e_plus //.
  transitivity (Cmult (Cmult (RtoC (r (Z.of_nat k))) (RtoC (r (Z.of_nat l)))) (Cmult (e n (Z.of_nat k * (Z.of_nat a - Z.of_nat c))) (e n (Z.of_nat l * (m - Z.of_nat a))))).
    ring.
  by rewrite -e_plus //; congr (Cmult _ (e _ _)); ring.
have nz : (Z.of_nat n <> 0)%Z by rewrite /n; lia.
rewrite csum_exch -csum_scal; apply: csum_ext => k kn.
rewrite csum_exch (csum_one kn) => [|l ln lk].
  rewrite /T csum_scal csum_scal ortho // Z.sub_diag Z.mod_0_l // Z.eqb_refl.
  rewrite RtoC_mult (_ : (Z.of_nat k * m - Z.of_nat k * Z.of_nat c = Z.of_nat k * (m - Z.of_nat c))%Z); last by ring.
  ring.
rewrite /T csum_scal csum_scal ortho //; case: Z.eqb_spec => [/Z.mod_divide []|_].
- by [].
- move=> q Eq; exfalso.
  have : (q = 0 \/ 1 <= q \/ q <= -1)%Z by lia.
  have {kn} [m1 m2] : (0 <= Z.of_nat k < Z.of_nat n)%Z by lia.
  have {ln} [j1 j2] : (0 <= Z.of_nat l < Z.of_nat n)%Z by lia.
  have : (Z.of_nat l <> Z.of_nat k)%Z by lia.
  move: Eq m1 m2 j1 j2; move: (Z.of_nat k) (Z.of_nat l) (Z.of_nat n) => zm zj zn; clear; nia.
- ring.
Qed.
End Synth.

Definition rpos (k : Z) : R := sqrt (Rmax (dt * spec k) 0).
Definition rneg (k : Z) : R := sqrt (Rmax (- (dt * spec k)) 0).

Lemma filterE : exists2 h, colored_filter kernel t = Ok h &
  size h = n /\ forall m, (m < n)%N -> RtoC (nth 0 h m) = Cmult (RtoC (/ (INR n * dt))) (H rpos (Z.of_nat m - Z.of_nat c)).
Proof.
have [NN EN] : exists N, N = INR n by exists (INR n).
rewrite -EN; have sks : size (map RtoC ks) = n by rewrite size_map size_ks.
have n1 : (1 < n)%N by rewrite /n /c; lia.
have nn := n_neq0 n0'; have pi := PI_neq0.
have stt : (1 < size (sym_times t))%N by rewrite size_ts.
have dtn : nth 0 (sym_times t) 1 - nth 0 (sym_times t) 0 <> 0 by rewrite ts_dt; lra.
rewrite /colored_filter -/ks; have f0 : (0 < size (map RtoC ks))%N by rewrite sks.
have [gw [-> [sg sw] Hw Hg]] := ftE f0 stt dtn; rewrite /= sks in sg sw Hw Hg *.
have Eg k : (k < n)%N -> Cnth gw.1 k = RtoC (dt * spec (Z.of_nat k)).
  move=> kn; rewrite Hg // fftE sks // Hw // ts_dt ts0 RtoC_mult -S_real.
  rewrite (_ : cis _ = e n (freq n k * Z.of_nat c)); last first.
    by rewrite /e; congr cis; rewrite mult_IZR -INR_IZR_INZ; field; lra.
  rewrite e_freq // Cmult_comm -Cmult_assoc; congr Cmult; rewrite -csum_scal /S; apply: csum_ext => m mn.
  rewrite (nth_map 0) ?size_ks // Cmult_comm -Cmult_assoc -e_plus //; congr (Cmult _ (e _ _)); ring.
have sg1 : (1 < size (map csqrt gw.1))%N by rewrite size_map sg.
have sw1 : size gw.2 = size (map csqrt gw.1) by rewrite size_map sg.
have [r -> [sr Hr]] := iftE sg1 sw1 (ltnW stt); rewrite size_map sg in sr Hr; rewrite /=.
rewrite size_map sr size_ts eqxx; eexists; first by reflexivity.
split=> [|m mn]; first by rewrite size_map sr.
rewrite (nth_map (RtoC 0)) ?sr // Hr //.
have rp_ev k : rpos (- k) = rpos k by rewrite /rpos spec_even.
have rp_per k : rpos (k + Z.of_nat n) = rpos k by rewrite /rpos spec_period.
have rn_ev k : rneg (- k) = rneg k by rewrite /rneg spec_even.
have rn_per k : rneg (k + Z.of_nat n) = rneg k by rewrite /rneg spec_period.
rewrite (csum_ext (g := fun k => Cplus (Cmult (RtoC (rpos (Z.of_nat k))) (e n (Z.of_nat k * (Z.of_nat m - Z.of_nat c))))
   (Cmult Ci (Cmult (RtoC (rneg (Z.of_nat k))) (e n (Z.of_nat k * (Z.of_nat m - Z.of_nat c))))))); last first.
  move=> k kn; rewrite (nth_map (RtoC 0)) ?sg // Eg // csqrt_real -/(rpos _) -/(rneg _).
  rewrite (_ : cis _ = e n (- (Z.of_nat k * Z.of_nat c))); last first.
    rewrite -Z.mul_opp_r -e_freq // /e Hw // ts_dt ts0; congr cis.
    by rewrite mult_IZR opp_IZR -INR_IZR_INZ; field; lra.
  rewrite -Cmult_assoc -e_plus // (_ : (rpos _, rneg _) = Cplus (RtoC (rpos (Z.of_nat k))) (Cmult Ci (RtoC (rneg (Z.of_nat k))))); last first.
    by rewrite /Ci /RtoC /Cplus /Cmult /=; congr pair; ring.
  rewrite (_ : (- (Z.of_nat k * Z.of_nat c) + Z.of_nat k * Z.of_nat m = Z.of_nat k * (Z.of_nat m - Z.of_nat c))%Z); last by ring.
  ring.
rewrite csum_plus csum_scal -/(H rpos _) -/(H rneg _).
rewrite (real_of (H_conj rp_ev rp_per _)) (real_of (H_conj rn_ev rn_per _)).
rewrite !Hw // (_ : INR n * _ / _ = / dt); last first.
  rewrite ts_dt; transitivity ((IZR (freq n 1) - IZR (freq n 0)) / dt); first by field; lra.
  by rewrite freq_step // ifF; [field; lra | rewrite /n /c; apply/negbTE; lia].
rewrite -EN in nn *; move: (Re (H rpos _)) (Re (H rneg _)) nn => x y nn; clear - nn dt0.
by rewrite /RtoC /Cplus /Cmult /Ci /=; congr pair; field; split; lra.
Qed.

(** The filter squared (on the circle of [n] samples): the part of the spectrum above zero. *)
Lemma filter_square : exists2 h, colored_filter kernel t = Ok h &
  size h = n /\ forall m, (m < n)%N ->
    RtoC (dt * rsum n (fun a => nth 0 h a * nth 0 h ((m + c + n - a) %% n)))
    = Cmult (RtoC (/ INR n)) (csum n (fun k => Cmult (RtoC (Rmax (spec (Z.of_nat k)) 0)) (e n (Z.of_nat k * (Z.of_nat m - Z.of_nat c))))).
Proof.
have [h -> [sh Hh]] := filterE; exists h => //; split=> // m mn.
have nn := n_neq0 n0'.
rewrite RtoC_mult -csum_RtoC.
rewrite (csum_ext (g := fun a => Cmult (RtoC (/ (INR n * dt) * / (INR n * dt)))
   (Cmult (H rpos (Z.of_nat a - Z.of_nat c)) (H rpos (Z.of_nat m - Z.of_nat a))))); last first.
  move=> a an; rewrite RtoC_mult !Hh ?ltn_pmod //.
  have -> : H rpos (Z.of_nat ((m + c + n - a) %% n) - Z.of_nat c) = H rpos (Z.of_nat m - Z.of_nat a).
    rewrite -(H_period rpos (Z.of_nat m - Z.of_nat a) (1 - Z.of_nat ((m + c + n - a) %/ n))); congr H.
    have := divn_eq (m + c + n - a) n; lia.
  rewrite RtoC_mult; ring.
rewrite csum_scal H_conv.
rewrite (csum_ext (g := fun k => Cmult (RtoC dt) (Cmult (RtoC (Rmax (spec (Z.of_nat k)) 0)) (e n (Z.of_nat k * (Z.of_nat m - Z.of_nat c)))))); last first.
  move=> k kn; rewrite Cmult_assoc -RtoC_mult; congr (Cmult (RtoC _) _).
  rewrite /rpos sqrt_sqrt; last exact: Rmax_r.
  by rewrite -{1}(Rmult_0_r dt) RmaxRmult //; lra.
rewrite csum_scal; set A := csum _ _.
transitivity (Cmult (RtoC (dt * (/ (INR n * dt) * / (INR n * dt)) * INR n * dt)) A); first by rewrite !RtoC_mult; ring.
by congr (Cmult (RtoC _) _); field; lra.
Qed.

Lemma filter_square_pos : (forall k, (k < n)%N -> 0 <= spectrum kernel k) ->
  exists2 h, colored_filter kernel t = Ok h &
    size h = n /\ forall m, (m < n)%N ->
      dt * rsum n (fun a => nth 0 h a * nth 0 h ((m + c + n - a) %% n)) = nth 0 ks m.
Proof.
move=> pos; have [h -> [sh Hh]] := filter_square; exists h => //; split=> // m mn.
have inj x y : RtoC x = RtoC y -> x = y by case.
apply: inj; rewrite Hh // -[RHS](inv_core (fun j => RtoC (nth 0 ks j)) mn); congr Cmult; apply: csum_ext => k kn.
rewrite Rmax_left; last by rewrite specE; exact: pos.
rewrite -S_real /S -!csum_scalr; apply: csum_ext => j jn.
by rewrite -!Cmult_assoc -!e_plus //; congr (Cmult _ (e _ _)); ring.
Qed.

Lemma filter_even h : colored_filter kernel t = Ok h ->
  forall m, (m < n)%N -> nth 0 h (2 * c - m) = nth 0 h m.
Proof.
move=> Eh m mn; have [h' E [sh Hh]] := filterE; move: E; rewrite Eh => -[Ehh]; rewrite -Ehh in Hh.
have inj x y : RtoC x = RtoC y -> x = y by case.
apply: inj; rewrite !Hh ?ltnS ?leq_subr //; congr Cmult.
have rp_ev k : rpos (- k) = rpos k by rewrite /rpos spec_even.
have rp_per k : rpos (k + Z.of_nat n) = rpos k by rewrite /rpos spec_period.
rewrite -[RHS]H_conj // /H csum_conj; apply: csum_ext => k _.
rewrite Cmult_conj -e_opp // (_ : Cconj (RtoC _) = RtoC (rpos (Z.of_nat k))); last by rewrite /Cconj /= Ropp_0.
have mn' : (m <= 2 * c)%N by [].
congr (Cmult _ (e _ _)).
rewrite (_ : Z.of_nat (2 * c - m) - Z.of_nat c = - (Z.of_nat m - Z.of_nat c))%Z; [ring | lia].
Qed.
End Filter.
