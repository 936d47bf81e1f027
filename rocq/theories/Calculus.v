(** * Differentiability in several variables.

    [gradient_at d f x g]: the function [f] of the first [d] coordinates is differentiable
    (in the sense of Fréchet) at [x], with gradient [g]. *)
From Coq Require Import Reals Lra Lia.
From Coquelicot Require Import Coquelicot.
From mathcomp Require Import all_ssreflect zify.
From Verif Require Import Base Colored ColoredProofs ColoredProofs3 ColoredProofs4.
Set Implicit Arguments.
Unset Strict Implicit.
Unset Printing Implicit Defensive.
Local Open Scope R_scope.

Definition gradient_at (d : nat) (f : (nat -> R) -> R) (x g : nat -> R) : Prop :=
  forall eps, 0 < eps -> exists2 delta, 0 < delta &
    forall y, (forall i, (i < d)%N -> Rabs (y i - x i) < delta) ->
      Rabs (f y - f x - rsum d (fun i => g i * (y i - x i))) <= eps * rsum d (fun i => Rabs (y i - x i)).

(** The derivative as a linear bound. *)
Lemma derive_bound f x l : is_derive f x l -> forall eps, 0 < eps -> exists2 delta, 0 < delta &
  forall h, Rabs h < delta -> Rabs (f (x + h) - f x - l * h) <= eps * Rabs h.
Proof.
move=> /is_derive_Reals H eps e0; have [delta Hd] := H eps e0.
exists (pos delta); first exact: cond_pos.
move=> h hd; case: (Req_EM_T h 0) => [->|h0].
  rewrite Rplus_0_r Rmult_0_r Rabs_R0 (_ : f x - f x - 0 = 0); last ring.
  by rewrite Rabs_R0; lra.
have /Rlt_le B := Hd h h0 hd.
have -> : f (x + h) - f x - l * h = ((f (x + h) - f x) / h - l) * h by field.
by rewrite Rabs_mult; apply: Rmult_le_compat_r B; exact: Rabs_pos.
Qed.

Lemma bound_derive f x l : (forall eps, 0 < eps -> exists2 delta, 0 < delta &
  forall h, Rabs h < delta -> Rabs (f (x + h) - f x - l * h) <= eps * Rabs h) -> is_derive f x l.
Proof.
move=> H; apply/is_derive_Reals => eps e0.
have [delta d0 Hd] := H (eps / 2) ltac:(lra); exists (mkposreal delta d0) => h h0 /= hd.
have -> : (f (x + h) - f x) / h - l = (f (x + h) - f x - l * h) / h by field.
rewrite Rabs_div //; have hp := Rabs_pos_lt h h0.
apply: Rle_lt_trans (_ : eps / 2 < eps); last lra.
apply: (Rmult_le_reg_r (Rabs h)) => //.
by rewrite /Rdiv Rmult_assoc Rinv_l ?Rmult_1_r; [exact: Hd | lra].
Qed.

Lemma fin_delta d (P : nat -> R -> Prop) :
  (forall i, (i < d)%N -> exists2 delta, 0 < delta & forall h, Rabs h < delta -> P i h) ->
  exists2 delta, 0 < delta & forall h, Rabs h < delta -> forall i, (i < d)%N -> P i h.
Proof.
elim: d => [|d IH] H; first by exists 1 => //; lra.
have [d1 p1 H1] := IH (fun i li => H i (leq_trans li (leqnSn d))).
have [d2 p2 H2] := H d (leqnn _).
exists (Rmin d1 d2); first exact: Rmin_pos.
move=> h hd i; rewrite ltnS leq_eqVlt => /orP[/eqP ->|li].
  by apply: H2; apply: Rlt_le_trans hd (Rmin_r _ _).
by apply: H1 => //; apply: Rlt_le_trans hd (Rmin_l _ _).
Qed.

Lemma rsum_le n f g : (forall k, (k < n)%N -> f k <= g k) -> rsum n f <= rsum n g.
Proof.
elim: n => [|n IH] H /=; first lra.
by apply: Rplus_le_compat; [apply: IH => k lk; apply: H; lia | apply: H].
Qed.
Lemma rsum_ge0 n f : (forall k, (k < n)%N -> 0 <= f k) -> 0 <= rsum n f.
Proof. by move=> H; rewrite -(rsum_0 n); apply: rsum_le. Qed.
Lemma rsum_abs n f : Rabs (rsum n f) <= rsum n (fun k => Rabs (f k)).
Proof.
elim: n => [|n IH] /=; first by rewrite Rabs_R0; lra.
by apply: Rle_trans (Rabs_triang _ _) _; apply: Rplus_le_compat_r.
Qed.
Lemma rsum_minus n f g : rsum n (fun k => f k - g k) = rsum n f - rsum n g.
Proof. by elim: n => [|n IH] /=; [lra | rewrite IH; lra]. Qed.
Lemma rsum_term n f j : (j < n)%N -> (forall k, (k < n)%N -> 0 <= f k) -> f j <= rsum n f.
Proof.
elim: n => //= n IH; rewrite ltnS leq_eqVlt => /orP[/eqP ->|lj] H.
  have := @rsum_ge0 n f (fun k lk => H k (leq_trans lk (leqnSn n))); lra.
have := IH lj (fun k lk => H k (leq_trans lk (leqnSn n))); have := H n (leqnn _); lra.
Qed.

(** ** The chain rule along a curve *)
Theorem gradient_chain d f (X : R -> nat -> R) t g v :
  gradient_at d f (X t) g ->
  (forall i, (i < d)%N -> is_derive (fun s => X s i) t (v i)) ->
  is_derive (fun s => f (X s)) t (rsum d (fun i => g i * v i)).
Proof.
move=> G D; apply: bound_derive => eps e0.
pose V := rsum d (fun i => Rabs (v i) + 1) + 1.
pose W := rsum d (fun i => Rabs (g i)) + 1.
have V0 : 0 < V by have := @rsum_ge0 d (fun i => Rabs (v i) + 1) (fun k _ => ltac:(have := Rabs_pos (v k); lra)); rewrite /V; lra.
have W0 : 0 < W by have := @rsum_ge0 d (fun i => Rabs (g i)) (fun k _ => Rabs_pos _); rewrite /W; lra.
have e1 : 0 < eps / (2 * V) by apply: Rdiv_lt_0_compat; lra.
have e2 : 0 < Rmin 1 (eps / (2 * W)) by apply: Rmin_pos; [lra | apply: Rdiv_lt_0_compat; lra].
have [d1 d1p H1] := G _ e1.
have [d2 d2p H2] : exists2 delta, 0 < delta & forall h, Rabs h < delta -> forall i, (i < d)%N ->
  Rabs (X (t + h) i - X t i - v i * h) <= Rmin 1 (eps / (2 * W)) * Rabs h /\ Rabs (X (t + h) i - X t i) < d1.
  apply: fin_delta => i li; have [d3 d3p H3] := derive_bound (D i li) e2.
  have vp := Rabs_pos (v i).
  exists (Rmin d3 (d1 / (Rabs (v i) + 2))); first by apply: Rmin_pos => //; apply: Rdiv_lt_0_compat; lra.
  move=> h hd; have B := H3 h (Rlt_le_trans _ _ _ hd (Rmin_l _ _)); split=> //.
  have hd' := Rlt_le_trans _ _ _ hd (Rmin_r _ _).
  have hp := Rabs_pos h.
  have B1 : Rabs (X (t + h) i - X t i - v i * h) <= Rabs h.
    apply: Rle_trans B _; rewrite -{2}[Rabs h]Rmult_1_l; apply: Rmult_le_compat_r => //; exact: Rmin_l.
  have -> : X (t + h) i - X t i = (X (t + h) i - X t i - v i * h) + v i * h by ring.
  apply: Rle_lt_trans (Rabs_triang _ _) _; rewrite Rabs_mult.
  have B2 : Rabs h * (Rabs (v i) + 2) < d1.
    have := Rmult_lt_compat_r (Rabs (v i) + 2) _ _ ltac:(lra) hd'.
    by rewrite /Rdiv Rmult_assoc Rinv_l ?Rmult_1_r //; lra.
  nra.
exists d2 => // h hd; have H2h := H2 h hd.
have K := H1 (X (t + h)) (fun i li => (H2h i li).2).
have hp := Rabs_pos h.
have S : rsum d (fun i => Rabs (X (t + h) i - X t i)) <= V * Rabs h.
  apply: Rle_trans (_ : rsum d (fun i => (Rabs (v i) + 1) * Rabs h) <= _); last first.
    by rewrite -rsum_mulr /V; nra.
  apply: rsum_le => i li; have [B _] := H2h i li.
  have -> : X (t + h) i - X t i = (X (t + h) i - X t i - v i * h) + v i * h by ring.
  apply: Rle_trans (Rabs_triang _ _) _; rewrite Rabs_mult.
  have := Rmin_l 1 (eps / (2 * W)); nra.
have T : Rabs (rsum d (fun i => g i * (X (t + h) i - X t i)) - rsum d (fun i => g i * v i) * h) <= eps / 2 * Rabs h.
  rewrite rsum_mulr -rsum_minus; apply: Rle_trans (rsum_abs _ _) _.
  apply: Rle_trans (_ : rsum d (fun i => Rabs (g i) * (eps / (2 * W) * Rabs h)) <= _).
    apply: rsum_le => i li; have [B _] := H2h i li.
    have -> : g i * (X (t + h) i - X t i) - g i * v i * h = g i * (X (t + h) i - X t i - v i * h) by ring.
    rewrite Rabs_mult; apply: Rmult_le_compat_l; first exact: Rabs_pos.
    by apply: Rle_trans B _; apply: Rmult_le_compat_r => //; exact: Rmin_r.
  rewrite -rsum_mulr.
  have -> : eps / 2 * Rabs h = W * (eps / (2 * W) * Rabs h) by field; lra.
  apply: Rmult_le_compat_r; last by rewrite /W; lra.
  by apply: Rmult_le_pos => //; apply: Rlt_le; apply: Rdiv_lt_0_compat; lra.
have -> : f (X (t + h)) - f (X t) - rsum d (fun i => g i * v i) * h =
  (f (X (t + h)) - f (X t) - rsum d (fun i => g i * (X (t + h) i - X t i))) +
  (rsum d (fun i => g i * (X (t + h) i - X t i)) - rsum d (fun i => g i * v i) * h) by ring.
apply: Rle_trans (Rabs_triang _ _) _.
have -> : eps * Rabs h = eps / (2 * V) * (V * Rabs h) + eps / 2 * Rabs h by field; lra.
apply: Rplus_le_compat T.
by apply: Rle_trans K _; apply: Rmult_le_compat_l S; lra.
Qed.

(** ** Building gradients *)
Lemma gradient_ext d f f' x g g' : (forall y, f y = f' y) -> (forall i, (i < d)%N -> g i = g' i) ->
  gradient_at d f x g -> gradient_at d f' x g'.
Proof.
move=> Ef Eg H eps e0; have [delta d0 Hd] := H eps e0; exists delta => // y Hy.
by rewrite -!Ef -(@rsum_ext d (fun i => g i * (y i - x i))); [exact: Hd | move=> i li; rewrite Eg].
Qed.

(** A function of one coordinate. *)
Lemma gradient_coord d i phi x l : (i < d)%N -> is_derive phi (x i) l ->
  gradient_at d (fun y => phi (y i)) x (fun j => if j == i then l else 0).
Proof.
move=> li D eps e0; have [delta d0 Hd] := derive_bound D e0.
exists delta => // y Hy.
have -> : rsum d (fun j => (if j == i then l else 0) * (y j - x j)) = l * (y i - x i).
  by rewrite (rsum_one li) ?eqxx // => k lk /eqP/negbTE ->; ring.
have := Hd (y i - x i) (Hy i li); have -> : x i + (y i - x i) = y i by ring.
move=> B; apply: Rle_trans B _; apply: Rmult_le_compat_l; first lra.
apply: (@rsum_term d (fun j => Rabs (y j - x j))) => // k _; exact: Rabs_pos.
Qed.

Lemma gradient_const d c x : gradient_at d (fun _ => c) x (fun _ => 0).
Proof.
move=> eps e0; exists 1; first lra; move=> y _.
rewrite (@rsum_ext d _ (fun _ => 0)) => [|k _]; last ring.
rewrite rsum_0; have -> : c - c - 0 = 0 by ring.
rewrite Rabs_R0; apply: Rmult_le_pos; first lra.
by apply: rsum_ge0 => k _; exact: Rabs_pos.
Qed.

(** The gradient is unique, and its entries are the partial derivatives. *)
Definition move_to (x : nat -> R) (i : nat) (s : R) : nat -> R := fun j => if j == i then s else x j.
Lemma gradient_partial d f x g i : (i < d)%N -> (forall y z, (forall j, (j < d)%N -> y j = z j) -> f y = f z) ->
  gradient_at d f x g -> is_derive (fun s => f (move_to x i s)) (x i) (g i).
Proof.
move=> li fd G.
have E j : move_to x i (x i) j = x j by rewrite /move_to; case: (j =P i) => [->|].
have G' : gradient_at d f (move_to x i (x i)) g.
  move=> eps e0; have [delta d0 Hd] := G eps e0; exists delta => // y Hy.
  rewrite (fd (move_to x i (x i)) x) => [|j _]; last exact: E.
  rewrite (@rsum_ext d _ (fun j => g j * (y j - x j))) => [|j _]; last by rewrite E.
  rewrite (@rsum_ext d (fun j => Rabs (y j - move_to x i (x i) j)) (fun j => Rabs (y j - x j))) => [|j _]; last by rewrite E.
  by apply: Hd => j lj; rewrite -(E j); exact: Hy.
have := @gradient_chain d f (fun s => move_to x i s) (x i) g (fun j => if j == i then 1 else 0) G'.
rewrite (rsum_one li) ?eqxx ?Rmult_1_r; first last.
  by move=> k _ /eqP/negbTE ->; ring.
apply=> j lj; rewrite /move_to; case: (j == i); first exact: is_derive_id.
exact: is_derive_const.
Qed.
Lemma gradient_unique d f x g g' i : (i < d)%N -> (forall y z, (forall j, (j < d)%N -> y j = z j) -> f y = f z) ->
  gradient_at d f x g -> gradient_at d f x g' -> g i = g' i.
Proof.
move=> li fd G G'.
have := is_derive_unique _ _ _ (gradient_partial li fd G).
by rewrite (is_derive_unique _ _ _ (gradient_partial li fd G')).
Qed.

Lemma rsum_abs_le n delta f : (forall k, (k < n)%N -> Rabs (f k) < delta) -> rsum n (fun k => Rabs (f k)) <= INR n * delta.
Proof.
elim: n => [|n IH] H; first by rewrite /=; lra.
rewrite S_INR /=; have := IH (fun k lk => H k (leq_trans lk (leqnSn n))); have := H n (leqnn _); lra.
Qed.

(** The increment is at most linear. *)
Lemma gradient_lip d f x g : gradient_at d f x g -> exists2 delta, 0 < delta &
  forall y, (forall i, (i < d)%N -> Rabs (y i - x i) < delta) ->
  Rabs (f y - f x) <= (1 + rsum d (fun i => Rabs (g i))) * rsum d (fun i => Rabs (y i - x i)).
Proof.
move=> /(_ 1 Rlt_0_1) [delta d0 H]; exists delta => // y Hy; have B := H y Hy.
set S := rsum d (fun i => Rabs (y i - x i)) in B *.
have -> : f y - f x = (f y - f x - rsum d (fun i => g i * (y i - x i))) + rsum d (fun i => g i * (y i - x i)) by ring.
apply: Rle_trans (Rabs_triang _ _) _; rewrite Rmult_plus_distr_r; apply: Rplus_le_compat B _.
apply: Rle_trans (rsum_abs _ _) _; rewrite rsum_mulr; apply: rsum_le => k lk.
rewrite Rabs_mult; apply: Rmult_le_compat_l; first exact: Rabs_pos.
by apply: (@rsum_term d (fun i => Rabs (y i - x i))) => // i _; exact: Rabs_pos.
Qed.

Lemma gradient_mult d f f' x g g' : gradient_at d f x g -> gradient_at d f' x g' ->
  gradient_at d (fun y => f y * f' y) x (fun i => g i * f' x + f x * g' i).
Proof.
move=> G G' eps e0.
have [d1 p1 L1] := gradient_lip G; have [d2 p2 L2] := gradient_lip G'.
set M1 := 1 + _ in L1; set M2 := 1 + _ in L2.
have M1p : 0 < M1 by have := @rsum_ge0 d (fun i => Rabs (g i)) (fun k _ => Rabs_pos _); rewrite /M1; lra.
have M2p : 0 < M2 by have := @rsum_ge0 d (fun i => Rabs (g' i)) (fun k _ => Rabs_pos _); rewrite /M2; lra.
have F0 := Rabs_pos (f x); have F0' := Rabs_pos (f' x).
have e1 : 0 < eps / (3 * (Rabs (f' x) + 1)) by apply: Rdiv_lt_0_compat; lra.
have e2 : 0 < eps / (3 * (Rabs (f x) + 1)) by apply: Rdiv_lt_0_compat; lra.
have [d3 p3 H1] := G _ e1; have [d4 p4 H2] := G' _ e2.
have D0 : 0 <= INR d by exact: pos_INR.
have M12 : 0 < M1 * M2 by exact: Rmult_lt_0_compat.
have DM : 0 < 3 * (INR d + 1) * (M1 * M2) by apply: Rmult_lt_0_compat; lra.
pose d5 := eps / (3 * (INR d + 1) * (M1 * M2)).
have p5 : 0 < d5 by apply: Rdiv_lt_0_compat.
exists (Rmin (Rmin d1 d2) (Rmin (Rmin d3 d4) d5)); first by repeat apply: Rmin_pos.
move=> y Hy.
have W z : Rmin (Rmin d1 d2) (Rmin (Rmin d3 d4) d5) <= z -> forall i, (i < d)%N -> Rabs (y i - x i) < z.
  by move=> Hz i li; apply: Rlt_le_trans (Hy i li) Hz.
have m1 : Rmin (Rmin d1 d2) (Rmin (Rmin d3 d4) d5) <= d1 by apply: Rle_trans (Rmin_l _ _) (Rmin_l _ _).
have m2 : Rmin (Rmin d1 d2) (Rmin (Rmin d3 d4) d5) <= d2 by apply: Rle_trans (Rmin_l _ _) (Rmin_r _ _).
have m3 : Rmin (Rmin d1 d2) (Rmin (Rmin d3 d4) d5) <= d3 by apply: Rle_trans (Rmin_r _ _) (Rle_trans _ _ _ (Rmin_l _ _) (Rmin_l _ _)).
have m4 : Rmin (Rmin d1 d2) (Rmin (Rmin d3 d4) d5) <= d4 by apply: Rle_trans (Rmin_r _ _) (Rle_trans _ _ _ (Rmin_l _ _) (Rmin_r _ _)).
have m5 : Rmin (Rmin d1 d2) (Rmin (Rmin d3 d4) d5) <= d5 by apply: Rle_trans (Rmin_r _ _) (Rmin_r _ _).
have A1 := L1 y (W _ m1); have A2 := L2 y (W _ m2); have B1 := H1 y (W _ m3); have B2 := H2 y (W _ m4).
have SD := @rsum_abs_le d d5 (fun i => y i - x i) (W _ m5).
have S0 : 0 <= rsum d (fun i => Rabs (y i - x i)) by apply: rsum_ge0 => k _; exact: Rabs_pos.
move: A1 A2 B1 B2 SD S0; set S := rsum d (fun i => Rabs (y i - x i)).
set T := rsum d (fun i => g i * (y i - x i)); set T' := rsum d (fun i => g' i * (y i - x i)).
have -> : rsum d (fun i => (g i * f' x + f x * g' i) * (y i - x i)) = f' x * T + f x * T'.
  by rewrite /T /T' !rsum_mull -rsum_plus; apply: rsum_ext => k _; ring.
move=> A1 A2 B1 B2 SD S0.
have -> : f y * f' y - f x * f' x - (f' x * T + f x * T') =
  f' x * (f y - f x - T) + (f x * (f' y - f' x - T') + (f y - f x) * (f' y - f' x)) by ring.
apply: Rle_trans (Rabs_triang _ _) _.
have -> : eps * S = eps / 3 * S + (eps / 3 * S + eps / 3 * S) by field.
apply: Rplus_le_compat.
  rewrite Rabs_mult.
  have -> : eps / 3 * S = (Rabs (f' x) + 1) * (eps / (3 * (Rabs (f' x) + 1)) * S) by field; lra.
  apply: Rmult_le_compat => //; [exact: Rabs_pos | lra].
apply: Rle_trans (Rabs_triang _ _) _; apply: Rplus_le_compat.
  rewrite Rabs_mult.
  have -> : eps / 3 * S = (Rabs (f x) + 1) * (eps / (3 * (Rabs (f x) + 1)) * S) by field; lra.
  apply: Rmult_le_compat => //; [exact: Rabs_pos | lra].
rewrite Rabs_mult.
apply: Rle_trans (_ : (M1 * S) * (M2 * S) <= _); first by apply: Rmult_le_compat => //; exact: Rabs_pos.
have -> : M1 * S * (M2 * S) = M1 * M2 * S * S by ring.
apply: Rmult_le_compat_r => //.
apply: Rle_trans (_ : M1 * M2 * (INR d * d5) <= _); first by apply: Rmult_le_compat_l => //; lra.
rewrite /d5; have -> : eps / 3 = M1 * M2 * ((INR d + 1) * (eps / (3 * (INR d + 1) * (M1 * M2)))).
  by field; split; [lra | split; lra].
apply: Rmult_le_compat_l; first lra.
by apply: Rmult_le_compat_r; [apply: Rlt_le; exact: p5 | lra].
Qed.

(** A function of one coordinate, given by its one-dimensional gradient. *)
Lemma gradient_lift d i f x g : (i < d)%N -> gradient_at 1 f (fun j => x (i + j)%N) g ->
  gradient_at d (fun y => f (fun j => y (i + j)%N)) x (fun j => if j == i then g 0%N else 0).
Proof.
move=> li G eps e0; have [delta d0 H] := G eps e0; exists delta => // y Hy.
have -> : rsum d (fun j => (if j == i then g 0%N else 0) * (y j - x j)) = g 0%N * (y i - x i).
  by rewrite (rsum_one li) ?eqxx // => k lk /eqP/negbTE ->; ring.
have := H (fun j => y (i + j)%N); rewrite /= !addn0 !Rplus_0_l => B.
apply: Rle_trans (B _) _; first by case=> // _; rewrite addn0; exact: Hy.
apply: Rmult_le_compat_l; first lra.
by apply: (@rsum_term d (fun j => Rabs (y j - x j))) => // k _; exact: Rabs_pos.
Qed.
