(** * Convergence of the inversion. *)
From Coq Require Import Reals Lra.
From Coquelicot Require Import Coquelicot.
From mathcomp Require Import all_ssreflect all_algebra zify.
From Verif Require Import Base RealsMC Quadrature FKernel Model Estimator FKernelSpec KernelSpec KernelValues FKernelProofs FKernelProofs2.
From Verif Require Import Tactics Convergence ConvergenceProofs ConvergenceInt ConvergenceMain.
Set Implicit Arguments.
Unset Strict Implicit.
Unset Printing Implicit Defensive.
Import Order.TTheory GRing.Theory Num.Theory.
Local Open Scope ring_scope.
Bind Scope ring_scope with Rdefinitions.R.
Local Notation R := Rdefinitions.R.

(** ** Powers *)
Lemma pow_exp (x : R) n : 0 <= x -> (1 + x) ^+ n <= exp (n%:R * x).
Proof.
move=> x0; elim: n => [|n IH]; first by rewrite mul0r expr0 exp_0.
have -> : exp (n.+1%:R * x) = exp x * exp (n%:R * x).
  by rewrite -[RHS]/(Rmult (exp x) (exp (n%:R * x))) -exp_plus; congr exp; rewrite -addn1 natrD mulrDl mul1r addrC.
rewrite exprS; apply: ler_pmul => //; first by rewrite addr_ge0 ?ler01.
  by rewrite exprn_ge0 // addr_ge0 ?ler01.
by apply/leRP; apply: exp_ineq1_le.
Qed.

Lemma pow_exp_T (q dt T : R) i : 0 <= q -> 0 <= dt -> i%:R * dt <= T -> (1 + q * dt) ^+ i <= exp (q * T).
Proof.
move=> q0 dt0 le; apply: le_trans (pow_exp _ (mulr_ge0 q0 dt0)) _.
have /leRP h : i%:R * (q * dt) <= q * T by rewrite mulrCA ler_wpmul2l.
apply/leRP; case: h => [lt|->]; last exact: Rle_refl.
by apply: Rlt_le; apply: exp_increasing.
Qed.

(** ** Samples *)
Section Samples.
Variables (a b : nat).
Implicit Types (F : R -> 'M[R]_(a, b)).
Lemma size_samples dt N F : size (samples dt N F) = N. Proof. exact: size_mkseq. Qed.
Lemma nth_samples dt N F i : (i < N)%N -> (samples dt N F)`_i = F (i%:R * dt).
Proof. by move=> li; rewrite nth_mkseq. Qed.
End Samples.

Lemma mint_sub a b L (x y : R) (F G : R -> 'M[R]_(a, b)) : x <= y -> mlip L x y F -> mlip L x y G ->
  mint (fun s => F s - G s) x y = mint F x y - mint G x y.
Proof.
move=> xy hF hG; apply/matrixP => i j; rewrite !mxE.
have e1 := mlip_ex i j xy hF; have e2 := mlip_ex i j xy hG.
rewrite -[RHS](RInt_minus _ _ _ _ e1 e2); apply: RInt_ext => s _; rewrite !mxE //.
Qed.

Lemma mlipB a b L (x y : R) (F G : R -> 'M[R]_(a, b)) : mlip L x y F -> mlip L x y G ->
  mlip (L + L) x y (fun s => F s - G s).
Proof.
move=> hF hG s t hs ht.
have -> : F s - G s - (F t - G t) = (F s - F t) - (G s - G t) by abel.
by rewrite mulrDl; apply: withinB; [apply: hF | apply: hG].
Qed.

Lemma nat_dt (i j : nat) (dt : R) : (j <= i)%N -> (i - j)%:R * dt = i%:R * dt - j%:R * dt.
Proof. by move=> le; rewrite natrB // mulrBl. Qed.

Section Main.
Variables (d m : nat) (T M : R).
Hypotheses (T0 : 0 <= T) (M0 : 0 <= M).

Lemma grid dt N i : 0 < dt -> N.-1%:R * dt <= T -> (i < N)%N -> 0 <= i%:R * dt <= T.
Proof using Type.
move=> dt0 le li; rewrite mulr_ge0 ?ler0n ?(ltW dt0) //=; apply: le_trans le.
by rewrite ler_wpmul2r ?(ltW dt0) // ler_nat; case: N li.
Qed.

(** *** Residuals of the exact solution *)
Section Residual.
Variables (B : R -> 'M[R]_d) (K : R -> 'M[R]_(d, m)).
Hypotheses (hB : lipschitz M T B) (hK : lipschitz M T K).
Variables (dt : R) (N : nat).
Hypotheses (dt0 : 0 < dt) (le : N.-1%:R * dt <= T).

Lemma rect_samples i n : (i < N)%N -> (n <= i)%N ->
  rect_rule dt (fun j => (samples dt N B)`_(i - j) *m K (j%:R * dt)) n =
  rect_rule dt (fun j => B (i%:R * dt - j%:R * dt) *m K (j%:R * dt)) n.
Proof.
clear T0 M0 dt0 le hB hK; move=> li ln; rewrite /rect_rule; congr (_ *: _); apply: eq_bigr => -[j lj] _ /=.
by rewrite nth_samples ?nat_dt //; move: li ln lj; lia.
Qed.

Lemma trapz_samples i : (i < N)%N ->
  trapz_rule dt (fun j => (samples dt N B)`_(i - j) *m K (j%:R * dt)) i =
  trapz_rule dt (fun j => B (i%:R * dt - j%:R * dt) *m K (j%:R * dt)) i.
Proof.
clear T0 M0 dt0 le hB hK; move=> li; rewrite /trapz_rule; congr (_ *: _); apply: eq_bigr => -[j lj] _ /=.
by rewrite !nth_samples ?nat_dt //; move: li lj; lia.
Qed.

Lemma rect_residual i : (i < N)%N ->
  within (T * LC d M * dt) (mint (fun s => B (i%:R * dt - s) *m K s) 0 (i%:R * dt) -
     rect_rule dt (fun j => (samples dt N B)`_(i - j) *m K (j%:R * dt)) i).
Proof.
move=> li; rewrite rect_samples //.
have /andP[t0 tT] := grid dt0 le li.
have H := conv_lip hB hK tT.
have h := @rect_err _ _ (LC d M) dt (LC d M * dt) i _ (ltW dt0) H.
apply: within_le (h _).
  have -> : i%:R * (dt * (LC d M * dt)) = (i%:R * dt) * LC d M * dt by rewrite -!mulrA.
  by rewrite ler_wpmul2r ?(ltW dt0) // ler_wpmul2r ?LC_ge0.
move=> j s lj /andP[h1 h2].
have l2 : j.+1%:R * dt <= i%:R * dt by rewrite ler_wpmul2r ?(ltW dt0) // ler_nat.
have l0 : 0 <= j%:R * dt by rewrite mulr_ge0 ?ler0n ?(ltW dt0).
apply: within_le (H _ _ _ _).
- apply: ler_wpmul2l; first exact: LC_ge0.
  rewrite ger0_norm ?subr_ge0 //; apply: le_trans (_ : j.+1%:R * dt - j%:R * dt <= _).
    by rewrite ler_add2r.
  by rewrite -mulrBl -natrB // subSnn mul1r.
- by rewrite (le_trans l0 h1) (le_trans h2 l2).
- by rewrite l0 (le_trans h1) // (le_trans h2).
Qed.

Lemma trapz_residual Bd Kd i : derivative M T B Bd -> derivative M T K Kd -> (i < N)%N ->
  within (T * (2 * (3%:R * (d%:R * (M * M)))) * dt ^+ 2) (mint (fun s => B (i%:R * dt - s) *m K s) 0 (i%:R * dt) -
     trapz_rule dt (fun j => (samples dt N B)`_(i - j) *m K (j%:R * dt)) i).
Proof.
move=> dB dK li; rewrite trapz_samples //.
have /andP[t0 tT] := grid dt0 le li.
have H := conv_lip hB hK tT.
have Q0 : 0 <= 3%:R * (d%:R * (M * M)) by rewrite !mulr_ge0 ?ler0n.
have h := @trapz_err _ _ (LC d M) (3%:R * (d%:R * (M * M))) dt i _ _ (ltW dt0) Q0 H (conv_derivative hB hK tT dB dK).
apply: within_le h.
set Z := 2 * _; have -> : i%:R * (Z * dt ^+ 3) = (i%:R * dt) * Z * dt ^+ 2.
  by rewrite [dt ^+ 3]exprS [Z * _]mulrCA !mulrA.
by rewrite ler_wpmul2r ?exprn_ge0 ?(ltW dt0) // ler_wpmul2r // /Z mulr_ge0 ?ler0n.
Qed.
End Residual.
End Main.
