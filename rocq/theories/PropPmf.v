(** * Properties C39, C58: free energy. *)
From Coq Require Import Reals Lra.
From Coquelicot Require Import Coquelicot.
From mathcomp Require Import all_ssreflect.
From Verif Require Import Base Colored Basis Calculus BasisProofs BasisVector Pmf PmfProofs PmfWitness.
Set Implicit Arguments.
Unset Strict Implicit.
Unset Printing Implicit Defensive.
Local Open Scope R_scope.

(** C39. With [set_zero], every entry is nonnegative and one is zero. *)
Theorem C39_zero n dim_x dim_obs A c kT eff_mass xs Q : pmf_eval n dim_x dim_obs A c kT eff_mass xs true = Ok Q ->
  (forall i l, inside Q i l -> 0 <= entry Q i l) /\ exists i l, inside Q i l /\ entry Q i l = 0.
Proof.
rewrite /pmf_eval; case: (odflt _ _) => [[mr mc] M]; case: (_ != _) => //.
by case: (Req_EM_T kT 0) => [? //|? /=]; exact: zeroed_true.
Qed.
Theorem C39_zero_overdamped n dim_obs A c kT xs Q : pmf_eval_overdamped n dim_obs A c kT xs true = Ok Q ->
  (forall i l, inside Q i l -> 0 <= entry Q i l) /\ exists i l, inside Q i l /\ entry Q i l = 0.
Proof. by rewrite /pmf_eval_overdamped; case: (Req_EM_T kT 0) => [? //|? /=]; exact: zeroed_true. Qed.
(** Differences do not depend on it. *)
Theorem C39_differences n dim_x dim_obs A c kT eff_mass xs Q Q' :
  pmf_eval n dim_x dim_obs A c kT eff_mass xs true = Ok Q ->
  pmf_eval n dim_x dim_obs A c kT eff_mass xs false = Ok Q' ->
  (forall i l, inside Q i l <-> inside Q' i l) /\
  forall i l j m, inside Q i l -> inside Q j m -> entry Q i l - entry Q j m = entry Q' i l - entry Q' j m.
Proof.
rewrite /pmf_eval; case: (odflt _ _) => [[mr mc] M]; case: (_ != _) => //.
by case: (Req_EM_T kT 0) => [? //|? /=] h1 h2; case: (zeroed_diff h1 h2).
Qed.
(** What is returned: a function of the point, for every non-empty list of points. *)
Theorem C39_pointwise n dim A c kT eff_mass xs :
  kT <> 0 -> xs <> [::] -> (0 < dim)%N ->
  (forall mr mc M, eff_mass = Some (mr, mc, M) -> mr = dim /\ mc = dim) ->
  let mass := (odflt (dim, dim, identity) eff_mass).2 in
  pmf_eval n dim dim A c kT eff_mass xs false = Ok (map (fun x => mkseq (phi n dim A c mass kT x) dim) xs) /\
  exists Q, pmf_eval n dim dim A c kT eff_mass xs true = Ok Q.
Proof. exact: pmf_evalE. Qed.
Theorem C39_overdamped n dim A c kT xs b : kT <> 0 ->
  pmf_eval_overdamped n dim A c kT xs b = pmf_eval n dim dim A c kT None xs b.
Proof. exact: pmf_eval_overdampedE. Qed.
(** Its derivative, in one dimension. *)
Theorem C39_derivative_partial n A b c mass kT : antiderivative_of n 1 A b ->
  forall x, gradient_at 1 (fun y => phi n 1 A c mass kT y 0) x (fun i => - force_eval n b c x 0 * mass 0%N 0%N / kT).
Proof. exact: one_dim. Qed.
(** In more, when the force along a coordinate depends on it only and the mass is diagonal. *)
Theorem C39_separable_partial n dim A b c mass kT : antiderivative_of n dim A b ->
  (forall k m, (k < n)%N -> (m < dim)%N -> (k %% dim)%N <> m -> c k m = 0) ->
  (forall m l, (m < dim)%N -> (l < dim)%N -> m <> l -> mass m l = 0) ->
  forall x l, (l < dim)%N -> gradient_at dim (fun y => phi n dim A c mass kT y l) x
    (fun i => if i == l then - force_eval n b c x l * mass l l / kT else 0).
Proof. by move=> h1 h2 h3 x l; exact: phi_force. Qed.
(** Not in general, the antiderivative being one per coordinate. *)
Theorem C39_2d_refuted : exists x, ~ gradient_at 2 (fun y => phi 2 2 (lin_antiderivative 2 1) cross identity 1 y 0) x
  (fun i => if i == 0%N then - force_eval 2 (lin_basis 2 (fun _ => 0)) cross x 0 * 1 / 1 else 0).
Proof. exact: pmf_2d_refuted. Qed.
(** Nor for the centred linear basis. *)
Theorem C39_centered_refuted : exists mean x, ~ gradient_at 1 (fun y => phi 1 1 (lin_antiderivative 1 1) (fun _ _ => 1) identity 1 y 0) x
  (fun i => - force_eval 1 (lin_basis 1 (lin_mean true mean)) (fun _ _ => 1) x 0 * 1 / 1).
Proof. exact: pmf_centered_refuted. Qed.
Print Assumptions C39_zero.
Print Assumptions C39_zero_overdamped.
Print Assumptions C39_differences.
Print Assumptions C39_pointwise.
Print Assumptions C39_overdamped.
Print Assumptions C39_derivative_partial.
Print Assumptions C39_separable_partial.
Print Assumptions C39_2d_refuted.
Print Assumptions C39_centered_refuted.
(** The cubic polynomials with their antiderivatives. *)
Example C39_example : antiderivative_of (1 * 4) 1 (poly_antiderivative monomial 3 1 1) (poly_basis monomial 3 1) /\
  exists Q, pmf_eval 4 1 1 (poly_antiderivative monomial 3 1 1) (fun k _ => 1) 2 None [:: (fun _ => 0); (fun _ => 1)] true = Ok Q.
Proof.
split; first by move=> k x lk; exact: (@poly_integral monomial 3 1 0).
have k2 : 2 <> 0 by lra.
by case: (@pmf_evalE 4 1 (poly_antiderivative monomial 3 1 1) (fun k _ => 1) 2 None [:: (fun _ => 0); (fun _ => 1)] k2).
Qed.

(** C58. Exact for an exponential density and an affine inverse mass, in units of [kT]. *)
Theorem C58_exact_partial N x0 dx m0 m1 g kT b :
  let x i := x0 + INR i * dx in let im i := m0 + m1 * x i in
  (2 <= N)%N -> dx <> 0 -> kT <> 0 -> (forall i, (i < N)%N -> im i <> 0) -> kT = 1 \/ m1 = 0 ->
  exists2 P, pmf_num_int kT (mkseq (fun i => m1 + im i * g) N) (mkseq im N) (mkseq x N) b = Ok P &
  size P = N /\ forall i j, (i < N)%N -> (j < N)%N -> nth 0 P i - nth 0 P j = - g * (x i - x j).
Proof. by move=> x im h1 h2 h3 h4 h5; exact: pmf_num_int_exact. Qed.
(** At another temperature the gradient of the mass is divided by [kT], where the force is not. *)
Theorem C58_temperature_refuted : exists kT force inv_mass x P, pmf_num_int kT force inv_mass x false = Ok P /\
  kT <> 0 /\ force = [:: 1; 1] /\ inv_mass = [:: 1; 2] /\ x = [:: 0; 1] /\ nth 0 P 1 - nth 0 P 0 <> 0.
Proof. exact: pmf_num_int_refuted. Qed.
(** One point is refused. *)
Theorem C58_one_refuted : exists kT f m x, forall b, pmf_num_int kT [:: f] [:: m] [:: x] b = Err OutOfBounds.
Proof. by exists 1, 1, 1, 1 => b; exact: pmf_num_int_one. Qed.
Print Assumptions C58_exact_partial.
Print Assumptions C58_temperature_refuted.
Print Assumptions C58_one_refuted.
Example C58_example : let x i := 1 + INR i * 1 in let im i := 1 + 1 * x i in
  (2 <= 3)%N /\ 1 <> 0 /\ (forall i, (i < 3)%N -> im i <> 0) /\ (1 = 1 \/ 1 = 0).
Proof.
split=> //; split; first lra; split; last by left.
by move=> i _; have := pos_INR i; lra.
Qed.
