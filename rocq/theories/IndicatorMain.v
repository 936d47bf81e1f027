(** * Smooth indicators: main results and witnesses. *)
From Coq Require Import Reals Lra Lia.
From Coquelicot Require Import Coquelicot.
From mathcomp Require Import all_ssreflect zify.
From Verif Require Import Base Colored ColoredProofs ColoredProofs3 ColoredProofs4 Calculus BasisProofs Indicator IndicatorProofs.
Set Implicit Arguments.
Unset Strict Implicit.
Unset Printing Implicit Defensive.
Local Open Scope R_scope.

Lemma unity B bs periodic x : from1to0 B -> ordered bs -> size_ok bs periodic ->
  exists2 f, ind_basis B bs periodic x = Ok f &
  [/\ size f = n_features (size bs) periodic,
      forall j, (j < size f)%N -> 0 <= nth 0 f j <= 1 &
      rsum (size f) (nth 0 f) = 1].
Proof.
move=> hB ord ok; have [f E [sf Hf]] := @ind_basisE B bs periodic x hB ord ok.
exists f => //; split=> //; rewrite sf.
  by move=> j lj; rewrite Hf //; exact: column_range.
rewrite -[RHS](@column_sum 1 x (fun _ => B 0%N) bs periodic ok.1).
by apply: rsum_ext => j lj; exact: Hf.
Qed.

(** [x] lies in state [n]: after the first [n] boundaries, before the others. *)
Definition in_state (bs : seq (R * R)) (n : nat) (x : R) : Prop :=
  (n <= size bs)%N /\
  (forall m, (m < n)%N -> upper (nth (0, 0) bs m) <= x) /\
  (forall m, (n <= m < size bs)%N -> x <= lower (nth (0, 0) bs m)).
Definition state_column (bs : seq (R * R)) (periodic : bool) (n : nat) : nat :=
  if periodic && (n == size bs) then 0%N else n.
Lemma stepf_before K f p x : p.1 <> p.2 -> x <= lower p -> f 0 = K -> stepf K f p x = K.
Proof.
move=> /lower_lt ab h f0; rewrite /stepf; case: rltbP => h1 //.
case: rltbP => h2; first lra.
have e : x = lower p by lra.
by rewrite (_ : (x - lower p) / _ = 0) // e; field; lra.
Qed.
Lemma state_one B bs periodic n x : from1to0 B -> ordered bs -> size_ok bs periodic -> in_state bs n x ->
  exists2 f, ind_basis B bs periodic x = Ok f & nth 0 f (state_column bs periodic n) = 1.
Proof.
move=> hB ord ok [nb [H1 H2]]; have [f E [sf Hf]] := @ind_basisE B bs periodic x hB ord ok.
have [B0 B1 _] := hB; have [s0 s1] := ok.
exists f => //; rewrite Hf; last first.
  by rewrite /state_column /n_features; case: (periodic) => /=; case: (n =P size bs) => /=; lia.
have S0 m : (m < n)%N -> (m < size bs)%N -> stepf 1 (B 0%N) (nth (0, 0) bs m) x = 0.
  by move=> mn ms; apply: stepf_high => //; [apply: ord.1 | apply: H1].
have S1 m : (n <= m)%N -> (m < size bs)%N -> stepf 1 (B 0%N) (nth (0, 0) bs m) x = 1.
  by move=> mn ms; apply: stepf_before => //; [apply: ord.1 | apply: H2; lia].
rewrite /column /state_column; case: (n =P size bs) => /= en.
  rewrite andbT; case: (periodic) s1 => s1; last by rewrite en eqxx S0; [ring | lia | lia].
  by rewrite ltn_eqF // !S0 //; [ring | lia | lia | lia].
rewrite andbF; case: (n =P size bs) => // _.
case: n en nb H1 H2 S0 S1 => [|n] en nb H1 H2 S0 S1.
  by case: (periodic); rewrite !S1 //; [ring | lia].
by rewrite S1 ?S0; [ring | | | | ]; lia.
Qed.

(** Total versions, for derivatives. *)
Lemma choice_res (A : Type) (f : R -> res A) (P : R -> A -> Prop) :
  (forall x, exists2 a, f x = Ok a & P x a) -> exists g, forall x, f x = Ok (g x) /\ P x (g x).
Proof.
move=> H; have [a0 _ _] := H 0.
exists (fun x => if f x is Ok a then a else a0) => x; have [a -> Pa] := H x; by split.
Qed.

Lemma derivative B bs periodic : from1to0 B -> differentiable1 B -> ordered bs -> size_ok bs periodic ->
  exists F D, (forall x, ind_basis B bs periodic x = Ok (F x)) /\
    (forall x, ind_deriv B bs periodic 1 x = Ok (D x)) /\
    forall x, [/\ size (D x) = n_features (size bs) periodic,
      forall j, (j < n_features (size bs) periodic)%N -> is_derive (fun y => nth 0 (F y) j) x (nth 0 (D x) j) &
      rsum (size (D x)) (nth 0 (D x)) = 0].
Proof.
move=> hB hD ord ok; have [_ B11 _] := hD.
have [F HF] := choice_res (fun x => @ind_basisE B bs periodic x hB ord ok).
have [D HD] := choice_res (fun x => @ind_derivE B bs periodic 1 x isT (fun _ _ _ => B11) ord ok).
exists F, D; split; first by move=> x; case: (HF x).
split; first by move=> x; case: (HD x).
move=> x; have [_ [sD ED]] := HD x; split=> //.
  move=> j lj; rewrite ED //.
  apply: (is_derive_ext (fun y => column 1 y (fun _ => B 0%N) bs periodic j)).
    by move=> y; have [_ [_ ->]] := HF y.
  apply: (@column_derive 1 (fun _ => B 0%N) (slope B 1)) => //; first exact: ok.1.
  by move=> n ln; apply: basis_step => //; apply: ord.1.
rewrite sD -[RHS](@column_sum 0 x (slope B 1) bs periodic ok.1).
by apply: rsum_ext => j lj; exact: ED.
Qed.

(** Points where the second derivative is asked for. *)
Definition hess_point (B : boundary_fun) (bs : seq (R * R)) (x : R) : Prop :=
  forall n, (n < size bs)%N ->
    (x = lower (nth (0, 0) bs n) -> B 2%N 0 = 0) /\ (x = upper (nth (0, 0) bs n) -> B 2%N 1 = 0).
Lemma second_derivative B bs periodic x : differentiable1 B -> differentiable2 B -> ordered bs -> size_ok bs periodic ->
  hess_point B bs x ->
  exists D h, (forall y, ind_deriv B bs periodic 1 y = Ok (D y)) /\ ind_hessian B bs periodic x = Ok h /\
    [/\ size h = n_features (size bs) periodic,
      forall j, (j < n_features (size bs) periodic)%N -> is_derive (fun y => nth 0 (D y) j) x (nth 0 h j) &
      rsum (size h) (nth 0 h) = 0].
Proof.
move=> hD hD2 ord ok hp; have [_ B11 _] := hD.
have [D HD] := choice_res (fun x => @ind_derivE B bs periodic 1 x isT (fun _ _ _ => B11) ord ok).
have [h Eh [sh Hh]] := @ind_derivE B bs periodic 2 x isT (fun n ln => (hp n ln).2) ord ok.
exists D, h; split; first by move=> y; case: (HD y).
split=> //; split=> //.
  move=> j lj; rewrite Hh //.
  apply: (is_derive_ext (fun y => column 0 y (slope B 1) bs periodic j)).
    by move=> y; have [_ [_ ->]] := HD y.
  apply: (@column_derive 0 (slope B 1) (slope B 2)) => //; first exact: ok.1.
  move=> n ln; apply: deriv_step => //; [exact: ord.1 | exact: (hp n ln).1 | exact: (hp n ln).2].
rewrite sh -[RHS](@column_sum 0 x (slope B 2) bs periodic ok.1).
by apply: rsum_ext => j lj; exact: Hh.
Qed.
Lemma away_point B bs x :
  (forall n, (n < size bs)%N -> x <> lower (nth (0, 0) bs n) /\ x <> upper (nth (0, 0) bs n)) -> hess_point B bs x.
Proof. by move=> H n ln; case: (H n ln). Qed.
Lemma tricube_point bs x : hess_point tricube bs x.
Proof. by move=> n ln; rewrite /tricube /=; split=> _; ring. Qed.

(** ** Witnesses *)
Definition two_states : seq (R * R) := [:: (0, 1); (3, 2)].
Lemma two_ordered : ordered two_states.
Proof.
split; first by case=> [|[|//]] _ /=; lra.
by case=> [|//] _; rewrite /upper /lower /= Rmax_right ?Rmin_right; lra.
Qed.

Lemma rltbT x y : x < y -> rltb x y = true. Proof. by move=> h; apply/rltbP. Qed.
Lemma rltbF x y : ~ x < y -> rltb x y = false. Proof. by move=> h; apply/rltbP. Qed.

Definition one_state : seq (R * R) := [:: (0, 1)].
Lemma one_ordered : ordered one_state.
Proof. by split=> // -[|//] _ /=; lra. Qed.
Lemma locate01 x : 0 <= x <= 1 -> locate (lower (0, 1)) (upper (0, 1)) x = Ok (In01 x).
Proof.
move=> h; rewrite /lower /upper /= Rmin_left ?Rmax_right; try lra.
rewrite /locate; case: (Req_EM_T 0 1) => [e|ne01] /=; first by exfalso; lra.
rewrite (_ : (x - 0) / (1 - 0) = x); last by field.
by rewrite !rltbF //; lra.
Qed.
Lemma locate01m x : x < 0 -> locate (lower (0, 1)) (upper (0, 1)) x = Ok Lt0.
Proof.
move=> h; rewrite /lower /upper /= Rmin_left ?Rmax_right; try lra.
rewrite /locate; case: (Req_EM_T 0 1) => [e|ne01] /=; first by exfalso; lra.
by rewrite (_ : (x - 0) / (1 - 0) = x); [rewrite rltbT | field].
Qed.
(** One periodic state: the only column is not 1 in the transition region. *)
Lemma one_periodic x : 0 <= x <= 1 -> ind_basis quartic one_state true x =
  Ok [:: if rltb 0 (1 - quartic 0%N x) then 1 - quartic 0%N x else quartic 0%N x].
Proof. by move=> h; rewrite /ind_basis /one_state locate01. Qed.
Lemma one_periodic_m x : x < 0 -> ind_basis quartic one_state true x = Ok [:: 1].
Proof. by move=> h; rewrite /ind_basis /one_state locate01m //= rltbF //; lra. Qed.
Lemma one_periodic_half : ind_basis quartic one_state true (1 / 2) = Ok [:: 7 / 16].
Proof.
rewrite one_periodic; last lra.
have -> : quartic 0%N (1 / 2) = 9 / 16 by rewrite /quartic; field.
rewrite rltbT; last lra.
by congr (Ok [:: _]); lra.
Qed.
(** ... and not even continuous at the start of the transition. *)
Lemma one_periodic_jump l : ~ is_derive (fun y => if ind_basis quartic one_state true y is Ok f then nth 0 f 0 else 0) 0 l.
Proof.
move=> D; have [delta d0 H] := derive_bound D Rlt_0_1.
pose h := Rmin (delta / 2) (Rmin (1 / 4) (/ (4 * (Rabs l + 1)))).
have l0 := Rabs_pos l.
have i0 : 0 < / (4 * (Rabs l + 1)) by apply: Rinv_0_lt_compat; lra.
have hp : 0 < h by rewrite /h; repeat apply: Rmin_pos; lra.
have h1 : h <= delta / 2 by exact: Rmin_l.
have h2 : h <= 1 / 4 by apply: Rle_trans (Rmin_r _ _) (Rmin_l _ _).
have h3 : h <= / (4 * (Rabs l + 1)) by apply: Rle_trans (Rmin_r _ _) (Rmin_r _ _).
have h4 : h * (Rabs l + 1) <= 1 / 4.
  apply: Rle_trans (Rmult_le_compat_r (Rabs l + 1) _ _ _ h3) _; first lra.
  by apply: Req_le; field; lra.
have := H h; rewrite Rplus_0_l (Rabs_pos_eq h); last lra.
move=> /(_ ltac:(lra)).
rewrite one_periodic; last lra.
rewrite one_periodic; last lra.
have E0 : quartic 0%N 0 = 1 by rewrite /quartic; ring.
rewrite E0 (rltbF (x := 0) (y := 1 - 1)); last lra.
have q : quartic 0%N h = 1 - 2 * h ^ 2 + h ^ 4 by rewrite /quartic; ring.
have q1 : 0 < 1 - quartic 0%N h <= 1 / 4.
  have w : 0 < h ^ 2 <= 1 / 16 by split; nra.
  have -> : 1 - quartic 0%N h = h ^ 2 * (2 - h ^ 2) by rewrite q; ring.
  by move: (h ^ 2) w => w [w0 w1]; split; nra.
rewrite rltbT; last lra.
move=> /= /Rabs_le_between [B _].
have : Rabs (l * h) <= 1 / 4 by rewrite Rabs_mult (Rabs_pos_eq h); [nra | lra].
move=> /Rabs_le_between; lra.
Qed.
