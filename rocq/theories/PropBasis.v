(** * Properties C32, C33, C36, C37: basis functions and their derivatives. *)
From Coq Require Import Reals Lra.
From Coquelicot Require Import Coquelicot.
From mathcomp Require Import all_ssreflect.
From Verif Require Import Base Basis Calculus BasisProofs BasisVector BasisVectorProofs CompositeProofs BasisWitness.
Set Implicit Arguments.
Unset Strict Implicit.
Unset Printing Implicit Defensive.
Local Open Scope R_scope.

(** C32. Underdamped classes: [E] is the rate of the basis functions, [dE] the rate of [E]. *)
Theorem C32_underdamped c dim o n col X V A t k : c = PosGle \/ c = WithFriction ->
  diff_obj dim o (flag o) n col -> twice_obj dim o (flag o) n ->
  trajectory dim X V -> trajectory dim V A -> (k < n)%N ->
  let E s := (corrs_vector c (init_basis c o) dim (X s) (V s) (A s)).1.2 in
  let dE s := (corrs_vector c (init_basis c o) dim (X s) (V s) (A s)).2 in
  [/\ (E t).1 = n, (dE t).1 = n,
      is_derive (fun s => (fn o (X s)).2 [:: col k]) t ((E t).2 [:: k]) &
      is_derive (fun s => (E s).2 [:: k]) t ((dE t).2 [:: k])].
Proof. exact: underdamped_rates. Qed.
(** The other classes: [dE] is the rate of [E], column by column. *)
Theorem C32_others c dim o n X V A t k : c <> PosGle -> c <> WithFriction ->
  (forall x, (fn o x).1 = n) -> diff_obj dim o false n id ->
  trajectory dim X V -> trajectory dim V A ->
  let E s := (corrs_vector c (init_basis c o) dim (X s) (V s) (A s)).1.2 in
  let dE s := (corrs_vector c (init_basis c o) dim (X s) (V s) (A s)).2 in
  (k < (E t).1)%N -> (dE t).1 = (E t).1 /\ is_derive (fun s => (E s).2 [:: k]) t ((dE t).2 [:: k]).
Proof. exact: other_rates. Qed.
(** In the position-only classes [E] is the basis itself. *)
Theorem C32_position_only c o dim x v a : c = NoVel \/ c = Overdamped ->
  (corrs_vector c (init_basis c o) dim x v a).1.2 = fn o x.
Proof. by case=> ->. Qed.
Print Assumptions C32_underdamped.
Print Assumptions C32_others.
Print Assumptions C32_position_only.
(** The hypotheses hold for the polynomial and Fourier bases and a cubic trajectory. *)
Example C32_example : diff_obj 1 (poly_obj monomial 3 1 true) true (1 * (4 - 1)) (fun k => 1 * 1 + k)%N /\
  twice_obj 1 (four_obj 2 1 1 true) true (1 * (5 - 1)) /\
  diff_obj 1 (poly_obj monomial 3 1 true) false (1 * 4) (fun k => 0 * 1 + k)%N /\
  trajectory 1 (fun t _ => t ^ 3) (fun t _ => 3 * t ^ 2).
Proof.
split; [exact: poly_diff | split; [exact: four_twice | split; [exact: poly_diff | exact: cubic_trajectory.1]]].
Qed.

(** C33. Linear features. *)
Theorem C33_linear dim centered mean x k : (k < dim)%N ->
  [/\ lin_basis dim (lin_mean centered mean) x [:: k] = x k - (if centered then mean k else 0),
      has_gradient dim (lin_basis dim (lin_mean centered mean)) (lin_deriv dim 1) k k [::] &
      forall i, has_gradient dim (lin_deriv dim 1) (lin_hessian dim) k k [:: i]].
Proof.
move=> lk; split; [by rewrite lin_basisE // /lin_mean; case: centered | exact: lin_gradient | ].
by move=> i; exact: lin_hessian_gradient.
Qed.
(** C31. A loaded model whose basis is not fitted yet: centred features lose the mean. *)
Theorem C31_unfitted_basis_refuted : exists dim mean x k, (k < dim)%N /\
  lin_basis dim (lin_mean true describe_from_dim_mean) x [:: k] <> lin_basis dim (lin_mean true mean) x [:: k].
Proof.
exists 1%N, (fun _ => 1), (fun _ => 0), 0%N; split=> //.
by rewrite !lin_basisE // /lin_mean /describe_from_dim_mean; lra.
Qed.
(** The antiderivative, without centring; false with. *)
Theorem C33_linear_antiderivative_partial dim mean k x : (k < dim)%N ->
  gradient_at dim (fun y => lin_antiderivative dim 1 y [:: k]) x
    (fun i => if i == (k %% dim)%N then lin_basis dim (lin_mean false mean) x [:: k] else 0).
Proof. exact: lin_integral. Qed.
Theorem C33_centered_refuted : exists mean x, ~ gradient_at 1 (fun y => lin_antiderivative 1 1 y [:: 0%N]) x
    (fun i => if i == (0 %% 1)%N then lin_basis 1 (lin_mean true mean) x [:: 0%N] else 0).
Proof. exact: centered_refuted. Qed.
(** Polynomials of any family [P]: values, gradient of every kept column, derivatives of every
    order, dropped columns constant, antiderivatives of every order. *)
Theorem C33_polynomial_values P deg dim x n i : (n <= deg)%N -> (i < dim)%N ->
  poly_basis P deg dim x [:: (n * dim + i)%N] = peval (P n) (x i).
Proof. exact: poly_value. Qed.
Theorem C33_monomials n t : peval (monomial n) t = t ^ n.
Proof. exact: peval_monomial. Qed.
Theorem C33_polynomial P deg dim rc k : (k < dim * (deg.+1 - bint rc))%N ->
  has_gradient dim (poly_basis P deg dim) (poly_deriv P deg dim rc 1) (bint rc * dim + k) k [::] /\
  forall m idx, size idx = m -> has_gradient dim (poly_deriv P deg dim rc m) (poly_deriv P deg dim rc m.+1) k k idx.
Proof. by move=> lk; split; [exact: poly_gradient | move=> m idx; exact: poly_gradient_next]. Qed.
Theorem C33_polynomial_constant P deg dim i x : (size (P 0%N) <= 1)%N -> (i < dim)%N ->
  gradient_at dim (fun y => poly_basis P deg dim y [:: i]) x (fun _ => 0).
Proof. exact: poly_const_gradient. Qed.
Theorem C33_polynomial_antiderivative P deg dim m k x : (k < dim * deg.+1)%N ->
  gradient_at dim (fun y => poly_antiderivative P deg dim m.+1 y [:: k]) x
    (fun i => if i == (k %% dim)%N then poly_antiderivative P deg dim m x [:: k] else 0) /\
  poly_antiderivative P deg dim 0 x = poly_basis P deg dim x.
Proof. by move=> lk; split; [exact: poly_integral | exact: poly_antiderivative0]. Qed.
(** Fourier series. *)
Theorem C33_fourier_values order freq dim x m i : (m <= order)%N -> (i < dim)%N ->
  [/\ four_basis order freq dim x [:: i] = 1 / sqrt (2 * PI),
      (0 < m)%N -> four_basis order freq dim x [:: ((2 * m).-1 * dim + i)%N] = sin (INR m * freq * x i) / sqrt PI &
      (0 < m)%N -> four_basis order freq dim x [:: (2 * m * dim + i)%N] = cos (INR m * freq * x i) / sqrt PI].
Proof. exact: four_values. Qed.
Theorem C33_fourier order freq dim rc k : (k < dim * (four_order order - bint rc))%N ->
  has_gradient dim (four_basis order freq dim) (four_deriv order freq dim rc 1) (bint rc * dim + k) k [::] /\
  forall i, has_gradient dim (four_deriv order freq dim rc 1) (four_deriv order freq dim rc 2) k k [:: i].
Proof. by move=> lk; split; [exact: four_gradient | move=> i; exact: four_hessian_gradient]. Qed.
Theorem C33_fourier_constant order freq dim i x : (i < dim)%N ->
  gradient_at dim (fun y => four_basis order freq dim y [:: i]) x (fun _ => 0).
Proof. exact: four_const_gradient. Qed.
Theorem C33_fourier_antiderivative_partial order freq dim k x : (freq <> 0 \/ order = 0%N) -> (k < dim * four_order order)%N ->
  exists2 A, forall y, four_antiderivative order freq dim 1 y = Ok (A y) &
  gradient_at dim (fun y => A y [:: k]) x
    (fun i => if i == (k %% dim)%N then four_basis order freq dim x [:: k] else 0).
Proof. exact: four_integral. Qed.
Theorem C33_zero_frequency_refuted : exists order freq dim x, four_antiderivative order freq dim 1 x = Err ZeroDivision.
Proof. by exists 1%N, 0, 1%N, (fun _ => 0); exact: four_zero. Qed.
(** [gradient_at] determines the gradient, so these are statements about its values. *)
Theorem C33_gradient_unique d f x g g' i : (i < d)%N -> (forall y z, (forall j, (j < d)%N -> y j = z j) -> f y = f z) ->
  gradient_at d f x g -> gradient_at d f x g' -> g i = g' i.
Proof. exact: gradient_unique. Qed.
Print Assumptions C33_linear.
Print Assumptions C33_linear_antiderivative_partial.
Print Assumptions C33_centered_refuted.
Print Assumptions C33_polynomial_values.
Print Assumptions C33_monomials.
Print Assumptions C33_polynomial.
Print Assumptions C33_polynomial_constant.
Print Assumptions C33_polynomial_antiderivative.
Print Assumptions C33_fourier_values.
Print Assumptions C33_fourier.
Print Assumptions C33_fourier_constant.
Print Assumptions C33_fourier_antiderivative_partial.
Print Assumptions C33_zero_frequency_refuted.
Print Assumptions C33_gradient_unique.
Example C33_example : (3 < 2 * (3.+1 - bint true))%N /\ (5 < 2 * (four_order 2 - bint true))%N /\ (size (monomial 0) <= 1)%N /\ (1 <> 0 \/ 2%N = 0%N).
Proof. by do 3 split=> //; left; lra. Qed.

(** C36. Tensor basis: indices, columns, gradient, Hessian. *)
Theorem C36_indices n1 n2 i j k : comb_indices n1 n2 i j = Ok k <-> split_index n1 n2 k = Ok (i, j).
Proof. exact: comb_split. Qed.
Theorem C36_indices_total n1 n2 :
  (forall i j, (i < n1)%N -> (j < n2)%N -> exists2 k, comb_indices n1 n2 i j = Ok k & (k < n1 * n2)%N) /\
  (forall k, (k < n1 * n2)%N -> exists i j, split_index n1 n2 k = Ok (i, j) /\ (i < n1)%N /\ (j < n2)%N).
Proof. by split; [exact: comb_defined | exact: split_defined]. Qed.
Theorem C36_columns b1 b2 n1 n2 x i j k : (forall x, (fn b1 x).1 = n1) -> (forall x, (fn b2 x).1 = n2) ->
  comb_indices n1 n2 i j = Ok k ->
  let c := tensor_init b1 b2 in
  (tensor_basis c.1 c.2 x).1 = (n1 * n2)%N /\
  (tensor_basis c.1 c.2 x).2 [:: k] = (fn b1 (coord 0 x)).2 [:: i] * (fn b2 (coord 1 x)).2 [:: j].
Proof. by move=> w1 w2 h; exact: tensor_column. Qed.
Theorem C36_gradient b1 b2 n1 n2 : (forall x, (fn b1 x).1 = n1) -> (forall x, (fn b2 x).1 = n2) ->
  diff_obj 1 b1 false n1 id -> diff_obj 1 b2 false n2 id ->
  let c := tensor_init b1 b2 in
  exists2 D, forall x, tensor_deriv c.1 c.2 x = Ok (D x) &
  forall x, (D x).1 = (n1 * n2)%N /\ forall k, (k < n1 * n2)%N ->
  gradient_at 2 (fun y => (tensor_basis c.1 c.2 y).2 [:: k]) x (fun d => (D x).2 [:: k; d]).
Proof. by move=> w1 w2 d1 d2; exact: tensor_gradient. Qed.
Theorem C36_hessian b1 b2 n1 n2 : (forall x, (fn b1 x).1 = n1) -> (forall x, (fn b2 x).1 = n2) ->
  diff_obj 1 b1 false n1 id -> diff_obj 1 b2 false n2 id -> twice_obj 1 b1 false n1 -> twice_obj 1 b2 false n2 ->
  let c := tensor_init b1 b2 in
  exists D H, [/\ forall x, tensor_deriv c.1 c.2 x = Ok (D x),
  forall x, tensor_hessian c.1 c.2 x = Ok (H x),
  forall x, (H x).1 = (n1 * n2)%N,
  forall x k d, (k < n1 * n2)%N -> (d < 2)%N ->
    gradient_at 2 (fun y => (D y).2 [:: k; d]) x (fun e => (H x).2 [:: k; d; e]) &
  forall x k d e, (k < n1 * n2)%N -> (d < 2)%N -> (e < 2)%N -> (H x).2 [:: k; d; e] = (H x).2 [:: k; e; d]].
Proof. by move=> w1 w2 d1 d2 t1 t2; exact: tensor_hessian_gradient. Qed.
(** Two distinct factors are fitted each on its own coordinate. *)
Theorem C36_fit_partial D (d0 d1 : D) l1 l2 s : l1 <> l2 ->
  exists2 s', tensor_fit [:: d0; d1] l1 (Some l2) s = Ok s' & s' l1 = Some d0 /\ s' l2 = Some d1.
Proof. exact: tensor_fit_own. Qed.
(** With one basis given, the first factor ends up fitted on the second coordinate. *)
Theorem C36_fit_refuted : exists (d0 d1 : nat) l s s', tensor_fit [:: d0; d1] l None s = Ok s' /\
  let (p1, p2) := tensor_loc l None in s' p1 = Some d1 /\ s' p1 <> Some d0.
Proof. by exists 0%N, 1%N, 0%N, (fun _ => None), (fun l => if l == 0%N then Some 1%N else if l == 0%N then Some 0%N else None). Qed.
Print Assumptions C36_indices.
Print Assumptions C36_indices_total.
Print Assumptions C36_columns.
Print Assumptions C36_gradient.
Print Assumptions C36_hessian.
Print Assumptions C36_fit_partial.
Print Assumptions C36_fit_refuted.
(** A polynomial and a Fourier factor. *)
Example C36_example : (forall x, (fn (poly_obj monomial 3 1 true) x).1 = 4%N) /\
  (forall x, (fn (four_obj 2 1 1 true) x).1 = 5%N) /\
  diff_obj 1 (poly_obj monomial 3 1 true) false 4 id /\ diff_obj 1 (four_obj 2 1 1 true) false 5 id /\
  twice_obj 1 (poly_obj monomial 3 1 true) false 4 /\ twice_obj 1 (four_obj 2 1 1 true) false 5.
Proof.
split; [by [] | split; [by [] | split; [exact: poly_diff | split; [exact: four_diff | split]]]].
  exact: poly_twice.
exact: four_twice.
Qed.

(** C37. Combined bases: values for any number, derivatives for two. *)
Theorem C37_values os x j k o0 : (j < size os)%N -> (k < (fn (nth o0 os j) x).1)%N ->
  exists2 B, combiner_basis os x = Ok B &
  B.1 = sumn (map (fun b => (fn b x).1) os) /\
  B.2 [:: (sumn (map (fun b => (fn b x).1) (take j os)) + k)%N] = (fn (nth o0 os j) x).2 [:: k].
Proof. exact: combiner_columns. Qed.
Theorem C37_two_partial dim o1 o2 n1 n2 w1 col1 col2 :
  (forall x, (fn o1 x).1 = w1) -> (forall k, (k < n1)%N -> (col1 k < w1)%N) ->
  diff_obj dim o1 (flag o1) n1 col1 -> diff_obj dim o2 (flag o2) n2 col2 ->
  exists B D, [/\ forall x, combiner_basis [:: o1; o2] x = Ok (B x),
    forall x, combiner_deriv [:: o1; o2] x = Ok (D x),
    forall x, (D x).1 = (n1 + n2)%N &
    forall k, (k < n1 + n2)%N ->
      has_gradient dim (fun y => (B y).2) (fun y => (D y).2) (cat_col n1 w1 col1 col2 k) k [::]].
Proof. exact: combiner_two. Qed.
(** Three or more: only the first and the last are differentiated; one: an exception. *)
Theorem C37_ends o os x l : combiner_deriv (o :: rcons os l) x = Ok (cat_arr (deriv o x) (deriv l x)).
Proof. exact: combiner_deriv_ends. Qed.
Theorem C37_three_refuted : exists os x B D, combiner_basis os x = Ok B /\
  combiner_deriv os x = Ok D /\ all (fun o => ~~ flag o) os /\ B.1 = 3%N /\ D.1 = 2%N.
Proof.
have [B [D [h1 [h2 [h3 h4]]]]] := combiner_three_refuted.
by exists [:: lin1; lin1; lin1], (fun _ => 0), B, D.
Qed.
Theorem C37_one_refuted : exists o x B, combiner_basis [:: o] x = Ok B /\ combiner_deriv [:: o] x = Err UnboundLocalError.
Proof. by exists lin1, (fun _ => 0); eexists; split. Qed.
Print Assumptions C37_values.
Print Assumptions C37_two_partial.
Print Assumptions C37_ends.
Print Assumptions C37_three_refuted.
Print Assumptions C37_one_refuted.
(** A linear and a polynomial basis without its constant. *)
Example C37_example : diff_obj 2 (lin_obj 2 false (fun _ => 0)) false 2 id /\
  diff_obj 2 (poly_obj monomial 2 2 true) true (2 * (3 - 1)) (fun k => 1 * 2 + k)%N /\ (forall k, (k < 2)%N -> (id k < 2)%N).
Proof. by split; [exact: lin_diff | split; [exact: poly_diff | ]]. Qed.
