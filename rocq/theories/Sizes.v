(** * Declared and produced sizes: models.py:436-438, 475-477, 551-552, 583-584, 615-616, 669-670
    against the arrays of [basis_vector]; lemmas.

    [n] is [n_output_features_], as each basis declares it in [fit]:
    _basis_features.py:33, 66, 129, 214, 244; _local_features.py:58, 178; _multidim_basis.py:40. *)
From Coq Require Import Reals.
From mathcomp Require Import all_ssreflect zify.
From Verif Require Import Base Colored Basis BasisVector LocalBasis.
Set Implicit Arguments.
Unset Strict Implicit.
Unset Printing Implicit Defensive.
Local Open Scope R_scope.

(** [n_output_features_] of the separable bases. *)
Definition n_out_lin (dim : nat) : nat := dim.
Definition n_out_poly (deg dim : nat) : nat := (dim * deg.+1)%N.
Definition n_out_four (order dim : nat) : nat := (dim * four_order order)%N.
Definition n_out_bspl (ns dim : nat) : nat := (ns * dim)%N.

(** FeaturesCombiner as one basis: [deriv] and [hessian] read the flags of the members, not its own
    (_basis_features.py:254-263).  Only for two or more members, see [combiner_deriv]. *)
Definition combiner_obj (o : obj) (os : seq obj) (l : obj) : obj :=
  Obj (combiner_flag (o :: rcons os l))
    (fun x => foldl (fun f b => cat_arr f (fn b x)) (fn o x) (rcons os l))
    (fun _ x => cat_arr (deriv o x) (deriv l x))
    (fun _ x => cat_arr (hessian o x) (hessian l x)).
Definition n_out_combiner (ns : seq nat) : nat := sumn ns.

(** What the model classes need: the widths of the arrays of a basis of declared size [n], at its
    own flag and at the cleared one. *)
Definition sized (dim : nat) (o : obj) (n : nat) : Prop :=
  [/\ (bint (flag o) * dim <= n)%N,
      forall x, (fn o x).1 = n,
      forall x, (deriv o x).1 = (n - bint (flag o) * dim)%N,
      forall x, (hessian o x).1 = (n - bint (flag o) * dim)%N &
      forall x, (dfn o false x).1 = n].

Lemma lin_sized dim centered mean : sized dim (lin_obj dim centered mean) (n_out_lin dim).
Proof. by split=> //= x; rewrite mul0n subn0. Qed.
Lemma poly_sized P deg dim rc : sized dim (poly_obj P deg dim rc) (n_out_poly deg dim).
Proof.
by split=> [|x|x|x|x] //; rewrite /= /n_out_poly ?subn0 //; case: rc; rewrite /= ?mul1n ?mul0n ?subn0 // ?subn1 ?mulnS ?addKn //=; lia.
Qed.
Lemma four_sized order freq dim rc : sized dim (four_obj order freq dim rc) (n_out_four order dim).
Proof.
have E : four_order order = (2 * order).+1 by rewrite /four_order addn1.
by split=> [|x|x|x|x] //; rewrite /= /n_out_four E ?subn0 //; case: rc; rewrite /= ?mul1n ?mul0n ?subn0 // ?subn1 ?mulnS ?addKn //=; lia.
Qed.
Lemma bspl_sized sp k ns dim rc : (0 < ns)%N -> sized dim (bspl_obj sp k ns dim rc) (n_out_bspl ns dim).
Proof.
case: ns => // ns _; rewrite /n_out_bspl.
by split=> [|x|x|x|x] //; rewrite /= ?subn0 mulSn ?[(dim * _)%N]mulnC //; case: rc; rewrite /= ?mul1n ?mul0n ?subn0 // ?subn1 ?mulSn ?addKn //=; lia.
Qed.

(** ** The classes *)
Lemma force_width c dim o n x v a : sized dim o n ->
  (corrs_vector c (init_basis c o) dim x v a).1.1.1 = n_force c n (flag o) dim.
Proof. by case=> le W D H F; case: c => //=; rewrite ?W // D mul2n -addnn addnBA. Qed.
Lemma kernel_width c dim dim_obs o n x v a : sized dim o n -> c <> ConstKernel -> c <> Hybrid ->
  (corrs_vector c (init_basis c o) dim x v a).1.2.1 = n_kernel c n (flag o) dim dim_obs /\
  (corrs_vector c (init_basis c o) dim x v a).2.1 = n_kernel c n (flag o) dim dim_obs.
Proof. by case=> le W D H F; case: c => //= _ _; rewrite /deriv /= ?W ?F; split=> //; apply: D. Qed.
Lemma const_kernel_width dim dim_obs o n x v a :
  (corrs_vector ConstKernel (init_basis ConstKernel o) dim x v a).1.2.1 = n_kernel ConstKernel n (flag o) dim dim_obs <-> dim = dim_obs.
Proof. by []. Qed.
Lemma hybrid_width dim dim_obs o n x v a : sized dim o n ->
  (corrs_vector Hybrid (init_basis Hybrid o) dim x v a).1.2.1 = n_kernel Hybrid n (flag o) dim dim_obs <-> dim = 1%N.
Proof. by case=> le W D H F /=; rewrite W; split=> [|->] //; lia. Qed.
Lemma hybrid_widths dim o n x v a : sized dim o n ->
  (corrs_vector Hybrid (init_basis Hybrid o) dim x v a).1.2.1 = (dim + n)%N /\
  (corrs_vector Hybrid (init_basis Hybrid o) dim x v a).2.1 = (dim + n)%N.
Proof. by case=> le W D H F /=; rewrite /deriv /= W F. Qed.

(** ** Combined bases *)
Lemma combiner_out o os l ns x : map (fun b => (fn b x).1) (o :: rcons os l) = ns ->
  (fn (combiner_obj o os l) x).1 = n_out_combiner ns.
Proof.
move=> <-; rewrite /n_out_combiner /=; move: (fn o x) => a.
elim: (rcons os l) a => [|b s IH] a /=; first by rewrite addn0.
by rewrite IH /= addnA.
Qed.
(** Two members. *)
Lemma combiner_two_sized dim o1 o2 n1 n2 : sized dim o1 n1 -> sized dim o2 n2 -> ~~ (flag o1 && flag o2) ->
  let c := combiner_obj o1 [::] o2 in
  [/\ forall x, (fn c x).1 = n_out_combiner [:: n1; n2],
      forall x, (deriv c x).1 = (n_out_combiner [:: n1; n2] - bint (flag c) * dim)%N &
      forall x, (hessian c x).1 = (n_out_combiner [:: n1; n2] - bint (flag c) * dim)%N].
Proof.
case=> le1 W1 D1 H1 F1 [le2 W2 D2 H2 F2] nb.
have B : (bint (flag o1) * dim + bint (flag o2) * dim)%N = (bint (combiner_flag [:: o1; o2]) * dim)%N.
  by move: nb; rewrite /combiner_flag /=; case: (flag o1); case: (flag o2) => //= _; lia.
split=> x; rewrite /n_out_combiner /=; first by rewrite W1 W2; lia.
  by rewrite D1 D2 -B; lia.
by rewrite H1 H2 -B; lia.
Qed.

(** Widths of the kernel basis and of its derivative. *)
Definition kwidth c o dim x v a : nat := (corrs_vector c (init_basis c o) dim x v a).1.2.1.
Definition dwidth c o dim x v a : nat := (corrs_vector c (init_basis c o) dim x v a).2.1.
(** Refutations: two members with the constant removed; the flag of a combination is cleared by
    the position-only classes, not those of its members. *)
Definition poly1 : obj := poly_obj monomial 2 1 true.
Lemma combiner_both_removed x v a : let c := combiner_obj poly1 [::] poly1 in
  kwidth PosGle c 1 x v a = 4%N /\ n_kernel PosGle (n_out_combiner [:: n_out_poly 2 1; n_out_poly 2 1]) (flag c) 1 1 = 5%N.
Proof. by []. Qed.
Lemma combiner_no_vel x v a : let c := combiner_obj (lin_obj 1 false (fun _ => 0)) [::] poly1 in
  kwidth NoVel c 1 x v a = 4%N /\ dwidth NoVel c 1 x v a = 3%N /\ n_kernel NoVel (n_out_combiner [:: n_out_lin 1; n_out_poly 2 1]) (flag c) 1 1 = 4%N.
Proof. by []. Qed.
Lemma hybrid_2d x v a : let o := lin_obj 2 false (fun _ => 0) in
  kwidth Hybrid o 2 x v a = 4%N /\ n_kernel Hybrid (n_out_lin 2) (flag o) 2 2 = 3%N.
Proof. by []. Qed.
Lemma const_kernel_obs x v a : let o := lin_obj 2 false (fun _ => 0) in
  kwidth ConstKernel o 2 x v a = 2%N /\ n_kernel ConstKernel (n_out_lin 2) (flag o) 2 1 = 1%N.
Proof. by []. Qed.
