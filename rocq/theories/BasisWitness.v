(** * Basis functions: values and witnesses. *)
From Coq Require Import Reals Lra Lia.
From Coquelicot Require Import Coquelicot.
From mathcomp Require Import all_ssreflect zify.
From Verif Require Import Base Colored ColoredProofs ColoredProofs3 ColoredProofs4 Basis Calculus BasisProofs BasisVector BasisVectorProofs CompositeProofs.
Set Implicit Arguments.
Unset Strict Implicit.
Unset Printing Implicit Defensive.
Local Open Scope R_scope.

Lemma poly_value P deg dim x n i : (n <= deg)%N -> (i < dim)%N ->
  poly_basis P deg dim x [:: (n * dim + i)%N] = peval (P n) (x i).
Proof.
move=> ln li; rewrite poly_basisE.
exact: (@fill_diag 0 deg.+1 dim 0 (fun n i => peval (P n) (x i)) n i ln li).
Qed.
Lemma peval_monomial n t : peval (monomial n) t = t ^ n.
Proof. by elim: n => [|n IH] /=; [ring | rewrite IH; ring]. Qed.

Lemma four_value order freq dim x n i : (n <= 2 * order)%N -> (i < dim)%N ->
  four_basis order freq dim x [:: (n * dim + i)%N] = four_fun freq n (x i).
Proof.
move=> ln li; rewrite four_basisE; apply: (@fill_diag 0 (four_order order) dim 0 (fun n i => four_fun freq n (x i)) n i) => //.
by rewrite /four_order; lia.
Qed.
Lemma INR2 m : INR (2 * m)%N = 2 * INR m.
Proof. by rewrite -multE mult_INR. Qed.
Lemma four_values order freq dim x m i : (m <= order)%N -> (i < dim)%N ->
  [/\ four_basis order freq dim x [:: i] = 1 / sqrt (2 * PI),
      (0 < m)%N -> four_basis order freq dim x [:: ((2 * m).-1 * dim + i)%N] = sin (INR m * freq * x i) / sqrt PI &
      (0 < m)%N -> four_basis order freq dim x [:: (2 * m * dim + i)%N] = cos (INR m * freq * x i) / sqrt PI].
Proof.
move=> lm li; split.
- by have := @four_value order freq dim x 0 i (leq0n _) li; rewrite mul0n add0n.
- move=> m0; rewrite four_value //; last lia.
  rewrite /four_fun ifF; last by apply/eqP; lia.
  rewrite ifF; last by apply/eqP; lia.
  rewrite prednK ?muln_gt0 // /half INR2.
  by congr (sin _ / _); field.
move=> m0; rewrite four_value //; last lia.
rewrite /four_fun ifF; last by apply/eqP; lia.
rewrite ifT; last by apply/eqP; lia.
by rewrite /half INR2; congr (cos _ / _); field.
Qed.

(** Centred linear features: the antiderivative forgets the centre. *)
Lemma centered_refuted : exists mean x, ~ gradient_at 1 (fun y => lin_antiderivative 1 1 y [:: 0%N]) x
    (fun i => if i == (0 %% 1)%N then lin_basis 1 (lin_mean true mean) x [:: 0%N] else 0).
Proof.
exists (fun _ => 1), (fun _ => 0) => G.
have G0 := @lin_integral 1 1 0 (fun _ => 0) isT.
have := @gradient_unique 1 _ (fun _ => 0) _ _ 0 isT _ G G0.
rewrite !lin_basisE //= /lin_mean => H; have : 0 - 1 = 0 - 0; last lra.
by apply: H => y z E; rewrite !lin_antiderivativeE // E.
Qed.

Lemma four_zero dim x : four_antiderivative 1 0 dim 1 x = Err ZeroDivision.
Proof. by rewrite /four_antiderivative /=; case: (Req_EM_T 0 0). Qed.

(** ** Combiner: three bases lose the middle one, and one basis fails. *)
Definition lin1 : obj := lin_obj 1 false (fun _ => 0).
Lemma combiner_three_refuted : exists B D, combiner_basis [:: lin1; lin1; lin1] (fun _ => 0) = Ok B /\
  combiner_deriv [:: lin1; lin1; lin1] (fun _ => 0) = Ok D /\ B.1 = 3%N /\ D.1 = 2%N.
Proof. by do 2 eexists; split; [|split]. Qed.

(** The columns kept and lost in general. *)
Lemma combiner_width o os x l D : combiner_deriv (o :: rcons os l) x = Ok D -> D.1 = ((deriv o x).1 + (deriv l x).1)%N.
Proof. by rewrite combiner_deriv_ends => -[<-]. Qed.

(** ** A trajectory *)
Lemma cubic_trajectory : trajectory 1 (fun t _ => t ^ 3) (fun t _ => 3 * t ^ 2) /\ trajectory 1 (fun t _ => 3 * t ^ 2) (fun t _ => 6 * t).
Proof. by split=> t i _; auto_derive => //; ring. Qed.
