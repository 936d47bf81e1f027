(** * Errors of the correlations in the inversion. *)
From mathcomp Require Import all_ssreflect all_algebra zify.
From Verif Require Import Base Quadrature FKernelSpec KernelSpec FKernelProofs Tactics Convergence ConvergenceProofs.
Set Implicit Arguments.
Unset Strict Implicit.
Unset Printing Implicit Defensive.
Import Order.TTheory GRing.Theory Num.Theory.
Local Open Scope ring_scope.

Lemma inv_coer (R : realFieldType) d (c : R) (A : 'M[R]_d) :
  A \in unitmx -> within c (invmx A) -> coer (d%:R * c) A.
Proof.
move=> u h m X e he; rewrite -(mulKmx u X) -mulrA; exact: withinM.
Qed.

(** ** Sizes of the rules *)
Section Rules.
Variables (R : realFieldType) (d m : nat) (dt : R).
Hypothesis dt0 : 0 <= dt.
Implicit Types (f g : nat -> 'M[R]_(d, m)).

Lemma within_rect n (u : nat -> R) f :
  (forall j, (j < n)%N -> within (u j) (f j)) -> within (dt * (\sum_(j < n) u j)) (rect_rule dt f n).
Proof. by move=> h; apply: withinZp => //; apply: (@within_sum _ _ _ n u f). Qed.

Lemma within_trapz n (u : nat -> R) f : (0 < n)%N ->
  (forall j, (j < n)%N -> 0 <= u j) ->
  (forall j, (j < n)%N -> within (u j) (f j)) ->
  within (dt * (\sum_(j < n) u j)) (trapz_rule dt f n - (2^-1 * dt) *: f n).
Proof.
move=> n1; case: n n1 => // n n1 u0 h; rewrite trapz_ruleE // addrK -(big_mkord xpredT u) big_ltn // mulrDr.
apply: withinD.
  apply: within_le (withinZp _ (h 0%N n1)); last by rewrite mulr_ge0 ?invr_ge0 ?ler0n.
  rewrite ler_wpmul2r ?u0 // -[X in _ <= X]mul1r ler_wpmul2r // invf_le1 ?ltr0n // ler1n //.
apply: withinZp => //; rewrite !big_add1 /= !big_mkord.
by apply: (@within_sum _ _ _ n (fun j => u j.+1) (fun j => f j.+1)) => j lj; apply: h; lia.
Qed.

Lemma rect_le N n (e : R) f : (n <= N)%N -> 0 <= e ->
  (forall j, (j <= n)%N -> within e (f j)) -> within (N%:R * dt * e) (rect_rule dt f n).
Proof.
move=> ln e1 h.
have h' j : (j < n)%N -> within e (f j) by move=> lj; apply/h/ltnW.
apply: within_le (within_rect (u := fun=> e) h').
rewrite sumr_const card_ord -[e *+ n]mulr_natl [dt * _]mulrCA mulrA ler_wpmul2r //.
by rewrite ler_wpmul2r // ler_nat.
Qed.

Lemma trapz_le N n (e : R) f : (n <= N)%N -> 0 <= e ->
  (forall j, (j <= n)%N -> within e (f j)) -> within (N%:R * dt * e) (trapz_rule dt f n).
Proof.
move=> ln e1 h.
have h' j : (j < n)%N -> within e (2^-1 *: (f j + f j.+1)).
  move=> lj; apply: within_le (_ : 2^-1 * (e + e) <= e) _.
    by rewrite -mulr2n -[e *+ 2]mulr_natl mulKf // pnatr_eq0.
  by apply: withinZp; [rewrite invr_ge0 ler0n | apply: withinD; apply: h; lia].
apply: within_le (within_rect (u := fun=> e) h').
rewrite sumr_const card_ord -[e *+ n]mulr_natl [dt * _]mulrCA mulrA ler_wpmul2r //.
by rewrite ler_wpmul2r // ler_nat.
Qed.

Lemma rect_lin f g h n : (forall j, (j <= n)%N -> f j = g j - h j) ->
  rect_rule dt f n = rect_rule dt g n - rect_rule dt h n.
Proof.
move=> E; rewrite /rect_rule -scalerBr -sumrB; congr (_ *: _); apply: eq_bigr => j _.
by rewrite E // ltnW.
Qed.

Lemma trapz_lin f g h n : (forall j, (j <= n)%N -> f j = g j - h j) ->
  trapz_rule dt f n = trapz_rule dt g n - trapz_rule dt h n.
Proof.
move=> E; rewrite /trapz_rule -scalerBr -sumrB; congr (_ *: _); apply: eq_bigr => j _.
by rewrite !E // ?(ltnW (ltn_ord j)) // -scalerBr addrACA opprD.
Qed.
End Rules.

(** ** Second kind *)
Section Second.
Variables (R : realFieldType) (d m N : nat) (dt c M eps eta beta kap : R).
Variables (B0 B0' : 'M[R]_d) (Bd Bd' : nat -> 'M[R]_d) (Dd Dd' K X : nat -> 'M[R]_(d, m)).
Hypotheses (dt0 : 0 <= dt) (c0 : 0 <= c) (M0 : 0 <= M) (e0 : 0 <= eps) (n0 : 0 <= eta) (b0 : 0 <= beta) (k0 : 0 <= kap).
Hypothesis hM : forall i, (i < N)%N -> within M (Bd i).
Hypothesis hB : within beta (B0 - B0').
Hypothesis hBd : forall i, (i < N)%N -> within eta (Bd i - Bd' i).
Hypothesis hD : forall i, (i < N)%N -> within eps (Dd i - Dd' i).
Hypothesis hX : forall i, (i < N)%N -> within kap (X i).
Let r : R := N%:R * dt * (d%:R * (eta * kap)) + eps + d%:R * (beta * kap).

Lemma r_ge0 : 0 <= r.
Proof. by rewrite /r !addr_ge0 // ?mulr_ge0 ?ler0n. Qed.

(** What the second kernel leaves in the equation of the first. *)
Lemma residual (S : (nat -> 'M[R]_(d, m)) -> nat -> 'M[R]_(d, m)) i :
  (forall f g h n, (forall j, (j <= n)%N -> f j = g j - h j) -> S f n = S g n - S h n) ->
  (forall n e f, (n <= N)%N -> 0 <= e -> (forall j, (j <= n)%N -> within e (f j)) -> within (N%:R * dt * e) (S f n)) ->
  (i < N)%N ->
  B0 *m K i = S (fun j => Bd (i - j) *m K j) i + Dd i ->
  B0' *m X i = S (fun j => Bd' (i - j) *m X j) i + Dd' i ->
  exists2 z, within r z & B0 *m (K i - X i) = S (fun j => Bd (i - j) *m (K j - X j)) i + z.
Proof.
move=> SB Sle li EK EX.
exists (S (fun j => (Bd (i - j) - Bd' (i - j)) *m X j) i + (Dd i - Dd' i) - (B0 - B0') *m X i).
  apply: withinB; last by apply: withinM => //; apply: hX.
  apply: withinD; last exact: hD.
  apply: Sle => // [||j lj]; first exact: ltnW; first by rewrite !mulr_ge0 ?ler0n.
  by apply: withinM; [apply: hBd | apply: hX]; lia.
rewrite (@SB (fun j => Bd (i - j) *m (K j - X j)) (fun j => Bd (i - j) *m K j) (fun j => Bd (i - j) *m X j));
  last by move=> j _; rewrite mulmxBr.
rewrite (@SB (fun j => (Bd (i - j) - Bd' (i - j)) *m X j) (fun j => Bd (i - j) *m X j) (fun j => Bd' (i - j) *m X j));
  last by move=> j _; rewrite mulmxBl.
rewrite mulmxBr mulmxBl EK EX.
set p := S _ _; set q := S _ _; set s := S _ _; set x := B0 *m _.
by abel.
Qed.

Lemma amplify (u : nat -> R) (i : nat) :
  c * (d%:R * M) * dt * (\sum_(j < i) u j) + c * r = c * (dt * (\sum_(j < i) d%:R * (M * u j)) + r).
Proof.
rewrite mulrDr; congr (_ + _); rewrite -!mulrA; congr (_ * _).
by rewrite -mulr_sumr -mulr_sumr [RHS]mulrCA; congr (_ * _); rewrite [RHS]mulrCA.
Qed.

Lemma rect_stable : coer c B0 ->
  (forall i, (i < N)%N -> B0 *m K i = rect_rule dt (fun j => Bd (i - j) *m K j) i + Dd i) ->
  (forall i, (i < N)%N -> B0' *m X i = rect_rule dt (fun j => Bd' (i - j) *m X j) i + Dd' i) ->
  forall i, (i < N)%N -> within (c * r * (1 + c * (d%:R * M) * dt) ^+ i) (K i - X i).
Proof.
move=> hc EK EX; apply: (gronwall (e := fun i => K i - X i)); last 2 first.
- by rewrite !mulr_ge0 ?ler0n.
- by rewrite mulr_ge0 ?r_ge0.
move=> i u li u0 hu; rewrite amplify; apply: hc.
have [z hz ->] := residual (@rect_lin R d m dt) (@rect_le R d m dt dt0 N) li (EK _ li) (EX _ li).
apply: withinD => //; apply: (within_rect dt0 (u := fun j => d%:R * (M * u j))) => j lj.
by apply: withinM; [apply: hM; lia | apply: hu].
Qed.

Lemma trapz_stable : coer c B0 -> coer c (B0 - (2^-1 * dt) *: Bd 0%N) ->
  (forall i, (i < N)%N -> B0 *m K i = trapz_rule dt (fun j => Bd (i - j) *m K j) i + Dd i) ->
  (forall i, (i < N)%N -> B0' *m X i = trapz_rule dt (fun j => Bd' (i - j) *m X j) i + Dd' i) ->
  forall i, (i < N)%N -> within (c * r * (1 + c * (d%:R * M) * dt) ^+ i) (K i - X i).
Proof.
move=> hc hc' EK EX; apply: (gronwall (e := fun i => K i - X i)); last 2 first.
- by rewrite !mulr_ge0 ?ler0n.
- by rewrite mulr_ge0 ?r_ge0.
move=> i u li u0 hu; rewrite amplify.
have [z hz E] := residual (@trapz_lin R d m dt) (@trapz_le R d m dt dt0 N) li (EK _ li) (EX _ li).
case: (posnP i) => [i0|ip].
  apply: hc; rewrite E i0 /trapz_rule !big_ord0 scaler0 mulr0 !add0r; exact: hz.
apply: hc'; rewrite mulmxBl E -scalemxAl addrAC; apply: withinD => //.
have -> : Bd 0%N = Bd (i - i)%N by rewrite subnn.
apply: (within_trapz dt0 (u := fun j => d%:R * (M * u j)) (f := fun j => Bd (i - j) *m (K j - X j))) => // j lj.
  by rewrite !mulr_ge0 ?ler0n ?u0.
by apply: withinM; [apply: hM; lia | apply: hu].
Qed.
End Second.

(** ** First kind, rectangles *)
Section First.
Variables (R : realFieldType) (d m : nat) (dt c M eps : R).
Variables (B : seq 'M[R]_d) (D D' K X : seq 'M[R]_(d, m)).
Hypotheses (dt0 : 0 < dt) (c0 : 0 <= c) (M0 : 0 <= M) (e0 : 0 <= eps).
Hypothesis bB : forall i, (i.+1 < size B)%N -> within (M * dt) (B`_i.+1 - B`_i).
Hypothesis hD : forall i, (0 < i < size B)%N -> within eps (D`_i - D'`_i).

Lemma first_stable : coer c B`_1 -> solves_rect dt B D K -> solves_rect dt B D' X ->
  forall i, (i < (size B).-1)%N -> within (c * (2 * eps / dt) * (1 + c * (d%:R * M) * dt) ^+ i) (K`_i - X`_i).
Proof.
move=> hc sK sX.
have s0 (E Y : seq 'M[R]_(d, m)) : solves_rect dt B E Y -> solves_rect dt B (set_nth 0 E 0 0) Y.
  by move=> s i /andP[i1 i2]; rewrite nth_set_nth /= gtn_eqF // s // i1.
apply: (first_rect_error (D := set_nth 0 D 0 0) (X := fun i => X`_i)) => //.
- by rewrite mulr_ge0 ?invr_ge0 ?mulr_ge0 ?ler0n // ltW.
- exact: s0.
- by rewrite nth_set_nth.
move=> i li; rewrite mulfVK ?gt_eqF //.
have E k : (k < size B)%N -> within eps (rect_rule dt (fun j => B`_(k - j) *m X`_j) k + (set_nth 0 D 0 0)`_k).
  case: k => [|k] lk; first by rewrite nth_set_nth /= addr0 /rect_rule big_ord0 scaler0; apply: within0.
  by rewrite (sX k.+1) ?lk // nth_set_nth /= addrC; apply: hD; rewrite lk.
have -> : 2 * eps = eps + eps by rewrite mulrDl mul1r.
by apply: withinB; apply: E; lia.
Qed.
End First.
