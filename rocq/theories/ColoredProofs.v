(** * Fourier helpers and coloured noise: lemmas. *)
From Coq Require Import Reals Lra Lia ZArith.
From Coquelicot Require Import Complex.
From mathcomp Require Import all_ssreflect zify.
From Verif Require Import Base Colored.
Set Implicit Arguments.
Unset Strict Implicit.
Unset Printing Implicit Defensive.
Local Open Scope R_scope.

(** ** Sums *)
Lemma csum_ext n f g : (forall k, (k < n)%N -> f k = g k) -> csum n f = csum n g.
Proof.
elim: n => //= n IH H; rewrite IH ?H // => k lk; apply: H; exact: ltn_trans lk _.
Qed.
Lemma csum_plus n f g : csum n (fun k => Cplus (f k) (g k)) = Cplus (csum n f) (csum n g).
Proof. by elim: n => [|n IH] /=; [rewrite Cplus_0_r | rewrite IH; ring]. Qed.
Lemma csum_scal n c f : csum n (fun k => Cmult c (f k)) = Cmult c (csum n f).
Proof. by elim: n => [|n IH] /=; [rewrite Cmult_0_r | rewrite IH; ring]. Qed.
Lemma csum_scalr n c f : csum n (fun k => Cmult (f k) c) = Cmult (csum n f) c.
Proof. by elim: n => [|n IH] /=; [rewrite Cmult_0_l | rewrite IH; ring]. Qed.
Lemma csum_0 n : csum n (fun _ => RtoC 0) = RtoC 0.
Proof. by elim: n => //= n ->; rewrite Cplus_0_r. Qed.
Lemma csum_exch n m (F : nat -> nat -> C) : csum n (fun i => csum m (F i)) = csum m (fun j => csum n (fun i => F i j)).
Proof.
elim: n => [|n IH] /=; first by rewrite csum_0.
by rewrite IH -csum_plus.
Qed.
Lemma csum_one n f j : (j < n)%N -> (forall k, (k < n)%N -> k <> j -> f k = RtoC 0) -> csum n f = f j.
Proof.
elim: n => //= n IH jn H; case: (j =P n) => [E|ne].
  rewrite E (_ : csum n f = RtoC 0) ?Cplus_0_l //; rewrite -(csum_0 n); apply: csum_ext => k kn.
  by apply: H; [exact: leq_trans kn _ | lia].
rewrite (H n) //; last by move=> h; apply: ne.
by rewrite Cplus_0_r; apply: IH => [|k kn]; [lia | apply: H; lia].
Qed.
Lemma csum_Sl n f : csum n.+1 f = Cplus (f 0%N) (csum n (fun k => f k.+1)).
Proof. by elim: n => [|n IH] /=; [ring | rewrite /= in IH; rewrite IH; ring]. Qed.
Lemma csum_rev n f : csum n f = csum n (fun k => f (n.-1 - k)%N).
Proof.
elim: n f => // n IH f; rewrite csum_Sl [RHS]/= subnn IH Cplus_comm; congr Cplus.
by apply: csum_ext => k kn; congr f; lia.
Qed.
Lemma csum_Re n f : Re (csum n f) = rsum n (fun k => Re (f k)).
Proof. by elim: n => //= n <-. Qed.
Lemma csum_conj n f : Cconj (csum n f) = csum n (fun k => Cconj (f k)).
Proof.
elim: n => /= [|n <-]; first by rewrite /Cconj /= Ropp_0.
by rewrite /Cconj /Cplus /=; congr pair; ring.
Qed.
Lemma csum_RtoC n f : csum n (fun k => RtoC (f k)) = RtoC (rsum n f).
Proof. by elim: n => //= n ->; rewrite RtoC_plus. Qed.
Lemma rsum_ext n f g : (forall k, (k < n)%N -> f k = g k) -> rsum n f = rsum n g.
Proof.
elim: n => //= n IH H; rewrite IH ?H // => k lk; apply: H; exact: ltn_trans lk _.
Qed.

(** ** The exponential *)
Lemma cis_plus a b : cis (a + b) = Cmult (cis a) (cis b).
Proof. by rewrite /cis cos_plus sin_plus /Cmult /=; congr pair; ring. Qed.
Lemma cis_0 : cis 0 = RtoC 1.
Proof. by rewrite /cis cos_0 sin_0. Qed.
Lemma cis_conj a : Cconj (cis a) = cis (- a).
Proof. by rewrite /cis cos_neg sin_neg. Qed.
Lemma cis_2PI : cis (2 * PI) = RtoC 1.
Proof. by rewrite /cis cos_2PI sin_2PI. Qed.

Section Root.
Variable n : nat.
Hypothesis n0 : (0 < n)%N.
Definition e (d : Z) : C := cis (2 * PI * IZR d / INR n).

Lemma n_neq0 : INR n <> 0.
Proof. by apply: not_0_INR; lia. Qed.
Lemma e_plus a b : e (a + b) = Cmult (e a) (e b).
Proof. by rewrite /e plus_IZR -cis_plus; congr cis; field; exact: n_neq0. Qed.
Lemma e_0 : e 0 = RtoC 1.
Proof. by rewrite /e (_ : _ / _ = 0) ?cis_0 //; field; exact: n_neq0. Qed.
Lemma e_n : e (Z.of_nat n) = RtoC 1.
Proof. by rewrite /e -INR_IZR_INZ (_ : _ / _ = 2 * PI) ?cis_2PI //; field; exact: n_neq0. Qed.
Lemma e_opp a : e (- a) = Cconj (e a).
Proof. by rewrite /e cis_conj opp_IZR; congr cis; field; exact: n_neq0. Qed.
Lemma e_nat_mul k : e (Z.of_nat n * Z.of_nat k) = RtoC 1.
Proof.
elim: k => [|k IH]; first by rewrite Z.mul_0_r e_0.
by rewrite Nat2Z.inj_succ Z.mul_succ_r e_plus IH e_n Cmult_1_l.
Qed.
Lemma e_mul q : e (Z.of_nat n * q) = RtoC 1.
Proof.
case: (Z.le_gt_cases 0 q) => h; first by rewrite -(Z2Nat.id q h) e_nat_mul.
have {h} h : (0 <= - q)%Z by lia.
rewrite (_ : (_ * q)%Z = - (Z.of_nat n * - q))%Z; last by lia.
by rewrite e_opp -(Z2Nat.id _ h) e_nat_mul /Cconj /= Ropp_0.
Qed.
Lemma e_period a q : e (a + Z.of_nat n * q) = e a.
Proof. by rewrite e_plus e_mul Cmult_1_r. Qed.

Lemma e_neq1 d : (0 < d < Z.of_nat n)%Z -> e d <> RtoC 1.
Proof.
move=> dn; rewrite /e /cis /RtoC => -[Ec _].
have nR : 0 < INR n by apply: lt_0_INR; lia.
set x := PI * IZR d / INR n.
have E2 : 2 * PI * IZR d / INR n = 2 * x by rewrite /x; field; lra.
rewrite E2 cos_2a_sin in Ec.
have s0 : 0 < sin x.
  have dR : 0 < IZR d by apply: (IZR_lt 0); lia.
  have dn' : IZR d < INR n by rewrite INR_IZR_INZ; apply: IZR_lt; lia.
  have pi := PI_RGT_0; apply: sin_gt_0; rewrite /x.
    by apply: Rdiv_lt_0_compat => //; apply: Rmult_lt_0_compat.
  apply: (Rmult_lt_reg_r (INR n)) => //; rewrite /Rdiv Rmult_assoc Rinv_l ?Rmult_1_r; last by lra.
  by apply: Rmult_lt_compat_l.
have := Rmult_lt_0_compat _ _ s0 s0; lra.
Qed.

Fixpoint cpow (q : C) (k : nat) : C := if k is k'.+1 then Cmult q (cpow q k') else RtoC 1.
Lemma geometric (q : C) m : Cmult (csum m (fun k => cpow q k)) (Cminus q (RtoC 1)) = Cminus (cpow q m) (RtoC 1).
Proof.
elim: m => [|m IH] /=; first by rewrite /Cminus; ring.
rewrite /= in IH; rewrite Cmult_plus_distr_r IH; rewrite /Cminus; ring.
Qed.

Lemma e_pow d k : e (Z.of_nat k * d) = cpow (e d) k.
Proof.
elim: k => [|k IH]; first by rewrite e_0.
by rewrite [cpow _ _]/= -IH -e_plus; congr e; rewrite Nat2Z.inj_succ; lia.
Qed.

(** Orthogonality of the exponentials. *)
Lemma ortho d : csum n (fun k => e (Z.of_nat k * d)) = RtoC (if (d mod Z.of_nat n =? 0)%Z then INR n else 0).
Proof.
have E : d = (d mod Z.of_nat n + Z.of_nat n * (d / Z.of_nat n))%Z by rewrite {1}(Z.div_mod d (Z.of_nat n)); lia.
have Hm : (0 <= d mod Z.of_nat n < Z.of_nat n)%Z by apply: Z.mod_pos_bound; lia.
case: Z.eqb_spec => h.
  rewrite h Z.add_0_l in E; rewrite (csum_ext (g := fun _ => RtoC 1)) => [|k _]; last first.
    by rewrite E Z.mul_assoc (Z.mul_comm (Z.of_nat k)) -Z.mul_assoc e_mul.
  have -> : forall m, csum m (fun _ => RtoC 1) = RtoC (INR m) => [|//].
  by elim=> [//|m IH]; rewrite S_INR RtoC_plus -IH.
have ne : e d <> RtoC 1 by rewrite E e_period; apply: e_neq1; lia.
rewrite (csum_ext (g := cpow (e d))) => [|k _]; last exact: e_pow.
have H := geometric (e d) n; rewrite -e_pow e_mul in H.
have c0 : Cminus (e d) (RtoC 1) <> RtoC 0.
  by move=> h0; apply: ne; rewrite -(Cplus_0_l (RtoC 1)) -h0 /Cminus; ring.
have := f_equal (fun z => Cmult z (Cinv (Cminus (e d) (RtoC 1)))) H.
rewrite -Cmult_assoc Cinv_r // Cmult_1_r => ->; rewrite /Cminus; ring.
Qed.

(** Sums over a period. *)
Definition periodic (F : Z -> C) := forall d, F (d + Z.of_nat n)%Z = F d.

Lemma periodic_mul F d q : periodic F -> F (d + Z.of_nat n * q)%Z = F d.
Proof.
move=> P.
have H (k : nat) a : F (a + Z.of_nat n * Z.of_nat k)%Z = F a.
  elim: k => [|k IH]; first by rewrite Z.mul_0_r Z.add_0_r.
  by rewrite Nat2Z.inj_succ Z.mul_succ_r Z.add_assoc P.
case: (Z.le_gt_cases 0 q) => h; first by rewrite -(Z2Nat.id q h).
have h' : (0 <= - q)%Z by lia.
rewrite -(H (Z.to_nat (- q)) (d + Z.of_nat n * q)%Z) Z2Nat.id //; congr F; lia.
Qed.

Lemma sum_shift1 F : periodic F -> csum n (fun k => F (Z.of_nat k + 1)%Z) = csum n (fun k => F (Z.of_nat k)).
Proof.
rewrite /periodic => P; case: n n0 P => // m _ P.
rewrite [LHS]/= csum_Sl Cplus_comm; congr Cplus; first by rewrite -[RHS]P; congr F; lia.
by apply: csum_ext => k _; congr F; lia.
Qed.

Lemma sum_shift F s : periodic F -> csum n (fun k => F (Z.of_nat k + s)%Z) = csum n (fun k => F (Z.of_nat k)).
Proof.
move=> P.
have H (j : nat) : csum n (fun k => F (Z.of_nat k + Z.of_nat j)%Z) = csum n (fun k => F (Z.of_nat k)).
  elim: j => [|j IH]; first by apply: csum_ext => k _; congr F; lia.
  rewrite -IH -[RHS](@sum_shift1 (fun d => F (d + Z.of_nat j)%Z)).
    by apply: csum_ext => k _; congr F; lia.
  by move=> d; rewrite -(P (d + Z.of_nat j)%Z); congr F; lia.
rewrite -(H (Z.to_nat (s mod Z.of_nat n))); apply: csum_ext => k _.
have Hm : (0 <= s mod Z.of_nat n < Z.of_nat n)%Z by apply: Z.mod_pos_bound; lia.
rewrite Z2Nat.id; last by lia.
rewrite -(@periodic_mul F (Z.of_nat k + s mod Z.of_nat n) (s / Z.of_nat n) P); congr F.
have := Z.div_mod s (Z.of_nat n); lia.
Qed.

Lemma sum_opp F : periodic F -> csum n (fun k => F (- Z.of_nat k)%Z) = csum n (fun k => F (Z.of_nat k)).
Proof.
move=> P; rewrite csum_rev -[RHS](sum_shift (1 - Z.of_nat n)) //.
by apply: csum_ext => k kn; congr F; lia.
Qed.

End Root.

(** ** ift after ft *)
Lemma cis_e n d : cis (2 * PI * IZR d / INR n) = e n d.
Proof. by []. Qed.

Lemma size_fft f : size (fft f) = size f. Proof. by rewrite size_mkseq. Qed.
Lemma size_ifft f : size (ifft f) = size f. Proof. by rewrite size_mkseq. Qed.
Lemma size_fftfreq n : size (fftfreq n) = n. Proof. by rewrite size_mkseq. Qed.

Lemma fftE f k : (k < size f)%N ->
  nth (RtoC 0) (fft f) k = csum (size f) (fun m => Cmult (nth (RtoC 0) f m) (e (size f) (- (Z.of_nat k * Z.of_nat m)))).
Proof.
move=> lk; rewrite nth_mkseq //; apply: csum_ext => m lm; congr Cmult; rewrite /e; congr cis.
by rewrite opp_IZR mult_IZR -!INR_IZR_INZ; field; apply: n_neq0; lia.
Qed.
Lemma ifftE f m : (m < size f)%N ->
  nth (RtoC 0) (ifft f) m = Cmult (RtoC (/ INR (size f)))
    (csum (size f) (fun k => Cmult (nth (RtoC 0) f k) (e (size f) (Z.of_nat k * Z.of_nat m)))).
Proof.
move=> lk; rewrite nth_mkseq //; congr Cmult; apply: csum_ext => k _; congr Cmult; rewrite /e; congr cis.
by rewrite mult_IZR -!INR_IZR_INZ; field; apply: n_neq0; lia.
Qed.

(** Inverse transform of the transform, with [m], [j] below [n]. *)
Lemma inv_core n (f : nat -> C) m : (m < n)%N ->
  Cmult (RtoC (/ INR n)) (csum n (fun k => Cmult (csum n (fun j => Cmult (f j) (e n (- (Z.of_nat k * Z.of_nat j)))))
      (e n (Z.of_nat k * Z.of_nat m)))) = f m.
Proof.
move=> mn; have n0 : (0 < n)%N by lia.
rewrite (csum_ext (g := fun k => csum n (fun j => Cmult (f j) (e n (Z.of_nat k * (Z.of_nat m - Z.of_nat j)))))); last first.
  move=> k _; rewrite -csum_scalr; apply: csum_ext => j _.
  by rewrite -Cmult_assoc -e_plus //; congr Cmult; congr e; lia.
rewrite csum_exch (csum_ext (g := fun j => Cmult (f j) (RtoC (if j == m then INR n else 0)))); last first.
  move=> j jn; rewrite csum_scal ortho //; congr (Cmult _ (RtoC _)).
  case: (j =P m) => [->|jm]; first by rewrite Z.sub_diag Z.mod_0_l //; lia.
  case: Z.eqb_spec => // /Z.mod_divide []; [lia | move=> q Eq]; exfalso.
  have : (q = 0 \/ 1 <= q \/ q <= -1)%Z by lia.
  have {mn} [m1 m2] : (0 <= Z.of_nat m < Z.of_nat n)%Z by lia.
  have {jn} [j1 j2] : (0 <= Z.of_nat j < Z.of_nat n)%Z by lia.
  have : (Z.of_nat j <> Z.of_nat m)%Z by lia.
  move: Eq m1 m2 j1 j2; move: (Z.of_nat m) (Z.of_nat j) (Z.of_nat n) => zm zj zn; clear; nia.
rewrite (csum_one mn) => [|k kn /eqP/negPf ->]; last by rewrite Cmult_0_r.
rewrite eqxx (Cmult_comm (f m)) Cmult_assoc -RtoC_mult Rinv_l ?Cmult_1_l //; exact: n_neq0.
Qed.
