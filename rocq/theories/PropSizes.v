(** * Properties C38, C57: declared sizes, spline bases. *)
From Coq Require Import Reals Lra.
From Coquelicot Require Import Coquelicot.
From mathcomp Require Import all_ssreflect.
From Verif Require Import Base Colored Basis Calculus BasisProofs BasisVector BasisVectorProofs CompositeProofs LocalBasis LocalBasisProofs Sizes Indicator IndicatorProofs.
Set Implicit Arguments.
Unset Strict Implicit.
Unset Printing Implicit Defensive.
Local Open Scope R_scope.

(** C38. Force basis: every class. *)
Theorem C38_force c dim o n x v a : sized dim o n ->
  (corrs_vector c (init_basis c o) dim x v a).1.1.1 = n_force c n (flag o) dim.
Proof. exact: force_width. Qed.
(** Kernel basis and its derivative: all classes but two. *)
Theorem C38_kernel_partial c dim dim_obs o n x v a : sized dim o n -> c <> ConstKernel -> c <> Hybrid ->
  (corrs_vector c (init_basis c o) dim x v a).1.2.1 = n_kernel c n (flag o) dim dim_obs /\
  (corrs_vector c (init_basis c o) dim x v a).2.1 = n_kernel c n (flag o) dim dim_obs.
Proof. exact: kernel_width. Qed.
(** The constant kernel: only when the observable has the dimension of the position. *)
Theorem C38_const_kernel dim dim_obs o n x v a :
  (corrs_vector ConstKernel (init_basis ConstKernel o) dim x v a).1.2.1 = n_kernel ConstKernel n (flag o) dim dim_obs <-> dim = dim_obs.
Proof. exact: const_kernel_width. Qed.
(** The hybrid class: only in one dimension. *)
Theorem C38_hybrid dim dim_obs o n x v a : sized dim o n ->
  (corrs_vector Hybrid (init_basis Hybrid o) dim x v a).1.2.1 = n_kernel Hybrid n (flag o) dim dim_obs <-> dim = 1%N.
Proof. exact: hybrid_width. Qed.
(** The bases declare the widths of their arrays, with or without the constant. *)
Theorem C38_bases :
  (forall dim centered mean, sized dim (lin_obj dim centered mean) (n_out_lin dim)) /\
  (forall P deg dim rc, sized dim (poly_obj P deg dim rc) (n_out_poly deg dim)) /\
  (forall order freq dim rc, sized dim (four_obj order freq dim rc) (n_out_four order dim)) /\
  (forall sp k ns dim rc, (0 < ns)%N -> sized dim (bspl_obj sp k ns dim rc) (n_out_bspl ns dim)).
Proof. by split; [exact: lin_sized | split; [exact: poly_sized | split; [exact: four_sized | exact: bspl_sized]]]. Qed.
Theorem C38_tensor b1 b2 n1 n2 : (forall x, (fn b1 x).1 = n1) -> (forall x, (fn b2 x).1 = n2) ->
  diff_obj 1 b1 false n1 id -> diff_obj 1 b2 false n2 id ->
  let c := tensor_init b1 b2 in forall x, (tensor_basis c.1 c.2 x).1 = (n1 * n2)%N /\
  exists2 D, tensor_deriv c.1 c.2 x = Ok D & D.1 = (n1 * n2)%N.
Proof.
move=> W1 W2 D1 D2 c x; split; first by rewrite /= W1 W2.
have [D H K] := tensor_gradient W1 W2 D1 D2.
by exists (D x); [exact: H | case: (K x)].
Qed.
Theorem C38_indicator B bs periodic x : from1to0 B -> ordered bs -> size_ok bs periodic ->
  exists2 f, ind_basis B bs periodic x = Ok f & size f = n_features (size bs) periodic.
Proof. by move=> h1 h2 h3; have [f E [s _]] := @ind_basisE B bs periodic x h1 h2 h3; exists f. Qed.
(** Combined bases: two members, not both without the constant; false otherwise. *)
Theorem C38_combiner_partial dim o1 o2 n1 n2 : sized dim o1 n1 -> sized dim o2 n2 -> ~~ (flag o1 && flag o2) ->
  let c := combiner_obj o1 [::] o2 in
  [/\ forall x, (fn c x).1 = n_out_combiner [:: n1; n2],
      forall x, (deriv c x).1 = (n_out_combiner [:: n1; n2] - bint (flag c) * dim)%N &
      forall x, (hessian c x).1 = (n_out_combiner [:: n1; n2] - bint (flag c) * dim)%N].
Proof. exact: combiner_two_sized. Qed.
(** The object is the combination of the code. *)
Theorem C38_combiner_obj o os l x :
  combiner_basis (o :: rcons os l) x = Ok (fn (combiner_obj o os l) x) /\
  combiner_deriv (o :: rcons os l) x = Ok (deriv (combiner_obj o os l) x).
Proof. by split=> //; exact: combiner_deriv_ends. Qed.
Theorem C38_hybrid_refuted : exists o n dim x v a, sized dim o n /\
  kwidth Hybrid o dim x v a = 4%N /\ n_kernel Hybrid n (flag o) dim dim = 3%N.
Proof.
exists (lin_obj 2 false (fun _ => 0)), 2%N, 2%N, (fun _ => 0), (fun _ => 0), (fun _ => 0).
by split; [exact: lin_sized | exact: hybrid_2d].
Qed.
Theorem C38_const_kernel_refuted : exists o n dim dim_obs x v a, sized dim o n /\
  kwidth ConstKernel o dim x v a = 2%N /\ n_kernel ConstKernel n (flag o) dim dim_obs = 1%N.
Proof.
exists (lin_obj 2 false (fun _ => 0)), 2%N, 2%N, 1%N, (fun _ => 0), (fun _ => 0), (fun _ => 0).
by split; [exact: lin_sized | exact: const_kernel_obs].
Qed.
Theorem C38_combiner_refuted : exists o1 o2 n1 n2 x v a, sized 1 o1 n1 /\ sized 1 o2 n2 /\
  kwidth PosGle (combiner_obj o1 [::] o2) 1 x v a = 4%N /\
  n_kernel PosGle (n_out_combiner [:: n1; n2]) (flag (combiner_obj o1 [::] o2)) 1 1 = 5%N.
Proof.
exists poly1, poly1, 3%N, 3%N, (fun _ => 0), (fun _ => 0), (fun _ => 0).
by do 2 (split; first exact: (poly_sized monomial 2 1 true)); exact: combiner_both_removed.
Qed.
(** Clearing the flag of a combination does not clear those of its members. *)
Theorem C38_no_vel_refuted : exists o1 o2 n1 n2 x v a, sized 1 o1 n1 /\ sized 1 o2 n2 /\
  kwidth NoVel (combiner_obj o1 [::] o2) 1 x v a = 4%N /\
  dwidth NoVel (combiner_obj o1 [::] o2) 1 x v a = 3%N /\
  n_kernel NoVel (n_out_combiner [:: n1; n2]) (flag (combiner_obj o1 [::] o2)) 1 1 = 4%N.
Proof.
exists (lin_obj 1 false (fun _ => 0)), poly1, 1%N, 3%N, (fun _ => 0), (fun _ => 0), (fun _ => 0).
split; first exact: lin_sized.
by split; [exact: (poly_sized monomial 2 1 true) | exact: combiner_no_vel].
Qed.
Print Assumptions C38_force.
Print Assumptions C38_kernel_partial.
Print Assumptions C38_const_kernel.
Print Assumptions C38_hybrid.
Print Assumptions C38_bases.
Print Assumptions C38_tensor.
Print Assumptions C38_indicator.
Print Assumptions C38_combiner_partial.
Print Assumptions C38_combiner_obj.
Print Assumptions C38_hybrid_refuted.
Print Assumptions C38_const_kernel_refuted.
Print Assumptions C38_combiner_refuted.
Print Assumptions C38_no_vel_refuted.
Example C38_example : sized 2 (poly_obj monomial 3 2 true) 8 /\ sized 2 (lin_obj 2 false (fun _ => 0)) 2 /\
  ~~ (flag (poly_obj monomial 3 2 true) && flag (lin_obj 2 false (fun _ => 0))).
Proof. by split; [exact: (poly_sized monomial 3 2 true) | split; [exact: lin_sized | ]]. Qed.

(** C57. B-splines. *)
Theorem C57_values sp ns dim x n i : (n < ns)%N -> (i < dim)%N ->
  bspl_basis sp ns dim x [:: (n * dim + i)%N] = sev sp n 0 (x i).
Proof. exact: bspl_value. Qed.
Theorem C57_gradient sp k ns dim rc kk : smooth_splines sp k 1 -> (kk < dim * (ns - bint rc))%N ->
  has_gradient dim (bspl_basis sp ns dim) (bspl_deriv sp k ns dim rc 1) kk kk [::].
Proof. by move=> h; exact: (bspl_gradient h isT). Qed.
Theorem C57_hessian sp k ns dim rc kk i : smooth_splines sp k 2 -> (kk < dim * (ns - bint rc))%N ->
  has_gradient dim (bspl_deriv sp k ns dim rc 1) (bspl_hessian sp k ns dim rc) kk kk [:: i].
Proof. exact: bspl_hessian_gradient. Qed.
Theorem C57_antiderivative sp ns dim m kk x : integral_splines sp -> (kk < dim * ns)%N ->
  gradient_at dim (fun y => bspl_antiderivative sp ns dim m.+1 y [:: kk]) x
    (fun i => if i == (kk %% dim)%N then bspl_antiderivative sp ns dim m x [:: kk] else 0) /\
  bspl_antiderivative sp ns dim 0 x [:: kk] = bspl_basis sp ns dim x [:: kk].
Proof. exact: bspl_integral. Qed.
(** The column left out with the constant is a combination of the others. *)
Theorem C57_dropped sp k ns dim x i d : smooth_splines sp k 1 -> (0 < ns)%N ->
  (forall t, rsum ns (fun n => sev sp n 0 t) = 1) -> (i < dim)%N -> (d < dim)%N ->
  bspl_deriv sp k ns dim false 1 x [:: (ns.-1 * dim + i)%N; d] =
  - rsum ns.-1 (fun n => bspl_deriv sp k ns dim true 1 x [:: (n * dim + i)%N; d]).
Proof. exact: bspl_dropped. Qed.
(** Single spline. *)
Theorem C57_single sp k dim j x : smooth_splines sp k 1 -> (0 < k)%N -> (j < dim)%N ->
  exists2 D, spl_deriv sp k dim 1 x = Ok D &
  gradient_at dim (fun y => spl_basis sp y [:: j]) x (fun i => D [:: j; i]).
Proof. exact: spl_gradient. Qed.
Theorem C57_single_hessian_partial sp k dim j i x : smooth_splines sp k 2 -> (1 < k)%N -> (j < dim)%N ->
  exists D H, [/\ forall y, spl_deriv sp k dim 1 y = Ok (D y), spl_hessian sp k dim x = Ok H &
  gradient_at dim (fun y => D y [:: j; i]) x (fun d => H [:: j; i; d])].
Proof. exact: spl_hessian_gradient. Qed.
(** A spline of degree one has a zero second derivative, which is refused. *)
Theorem C57_linear_refuted : exists sp dim x, smooth_splines sp 1 2 /\ spl_hessian sp 1 dim x = Err ValueError.
Proof.
exists (Splines (fun n d t => 0) (fun n m t => 0)), 1%N, (fun _ => 0); split; last exact: spl_linear_refused.
by split=> // n d t _; exact: is_derive_const.
Qed.
Print Assumptions C57_values.
Print Assumptions C57_gradient.
Print Assumptions C57_hessian.
Print Assumptions C57_antiderivative.
Print Assumptions C57_dropped.
Print Assumptions C57_single.
Print Assumptions C57_single_hessian_partial.
Print Assumptions C57_linear_refuted.
Example C57_example : smooth_splines bern_splines 2 2 /\ integral_splines bern_splines /\
  forall t, rsum 3 (fun n => sev bern_splines n 0 t) = 1.
Proof. by split; [exact: bern_smooth | split; [exact: bern_integral | exact: bern_unity]]. Qed.
