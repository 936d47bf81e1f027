(** * Spline bases: lemmas. *)
From Coq Require Import Reals Lra Lia.
From Coquelicot Require Import Coquelicot.
From mathcomp Require Import all_ssreflect zify.
From Verif Require Import Base Colored ColoredProofs ColoredProofs3 ColoredProofs4 Basis Calculus BasisProofs BasisVector BasisVectorProofs LocalBasis.
Set Implicit Arguments.
Unset Strict Implicit.
Unset Printing Implicit Defensive.
Local Open Scope R_scope.

(** The derivatives of order up to [m] of the splines are derivatives of each other, and those
    of order above the degree vanish. *)
Definition smooth_splines (sp : splines) (k m : nat) : Prop :=
  (forall n d t, (d < m)%N -> is_derive (sev sp n d) t (sev sp n d.+1 t)) /\
  (forall n d t, (k < d)%N -> sev sp n d t = 0).
Definition integral_splines (sp : splines) : Prop :=
  (forall n m t, is_derive (santi sp n m.+1) t (santi sp n m t)) /\
  (forall n t, santi sp n 0 t = sev sp n 0 t).

Section BSpline.
Variables (sp : splines) (k ns dim : nat).
Lemma bspl_basisE x : bspl_basis sp ns dim x = fill 0 ns dim 0 (fun n i => sev sp n 0 (x i)).
Proof. exact: fill0E. Qed.
Lemma fill_const0 c hi m val : (forall n i, val n i = 0) -> forall j, fill c hi dim m val j = 0.
Proof.
move=> H j; rewrite /fill.
have G s f : f j = 0 -> (loop c s (fun n f => loop 0 dim (fun i f => tset f (((n - c) * dim + i)%N :: nseq m i) (val n i)) f) f) j = 0.
  rewrite /loop; elim: (iota c _) f => //= n l IH f fj; apply: IH.
  by elim: (iota 0 _) f fj => //= i l' IH' f fj; apply: IH'; rewrite /tset H; case: eqP.
exact: G.
Qed.
Lemma bspl_derivE rc m x j : (forall n t, (k < m)%N -> sev sp n m t = 0) ->
  bspl_deriv sp k ns dim rc m x j = fill 0 (ns - bint rc) dim m (fun n i => sev sp n m (x i)) j.
Proof.
move=> H; rewrite /bspl_deriv; case E: (k < m)%N; first by rewrite fill_const0 // => n i; apply: H.
by rewrite /fill; congr (_ j); apply: loop_ext => n s; rewrite subn0.
Qed.

Lemma bspl_value x n i : (n < ns)%N -> (i < dim)%N -> bspl_basis sp ns dim x [:: (n * dim + i)%N] = sev sp n 0 (x i).
Proof. by move=> ln li; rewrite bspl_basisE; exact: (@fill_diag 0 ns dim 0 (fun n i => sev sp n 0 (x i)) n i ln li). Qed.

Lemma fill_shrink hi hi' m val n i idx : (n < hi)%N -> (n < hi')%N -> (i < dim)%N ->
  fill 0 hi dim m val ((n * dim + i)%N :: idx) = fill 0 hi' dim m val ((n * dim + i)%N :: idx).
Proof.
move=> l1 l2 li; case: (idx =P nseq m i) => [->|ne]; last by rewrite !fill_zero.
by rewrite !fill_diag.
Qed.

Lemma bspl_gradient m rc kk : smooth_splines sp k m -> (0 < m)%N -> (kk < dim * (ns - bint rc))%N ->
  has_gradient dim (bspl_basis sp ns dim) (bspl_deriv sp k ns dim rc 1) kk kk [::].
Proof.
move=> [S Z] m0; rewrite mulnC => lk x.
have d0 : (0 < dim)%N by case: dim lk => // ; rewrite muln0.
have lt := ltn_pmod kk d0.
have ln : (kk %/ dim < ns - bint rc)%N by rewrite ltn_divLR.
have ln' : (kk %/ dim < ns)%N by apply: leq_trans ln _; exact: leq_subr.
have := @fill_gradient dim 0 (ns - bint rc) 0 0 (fun x n i => sev sp n 0 (x i)) (fun x n i => sev sp n 1 (x i))
  (fun n => sev sp n 0) (fun n => sev sp n 1) (kk %/ dim) (kk %% dim) [::] _ _ (fun n t => S n 0%N t m0).
rewrite !add0n subn0 -divn_eq => H.
apply: (gradient_ext _ _ (H _ _ _ ln lt _ x)) => // [y|i li].
  rewrite bspl_basisE (divn_eq kk dim).
  exact: (@fill_shrink _ _ 0 (fun n i => sev sp n 0 (y i)) _ _ [::] ln ln' lt).
by rewrite bspl_derivE // => n t; exact: Z.
Qed.
Lemma bspl_hessian_gradient rc kk i : smooth_splines sp k 2 -> (kk < dim * (ns - bint rc))%N ->
  has_gradient dim (bspl_deriv sp k ns dim rc 1) (bspl_hessian sp k ns dim rc) kk kk [:: i].
Proof.
move=> [S Z]; rewrite mulnC => lk x.
have H := @fill_gradient_k dim 0 (ns - bint rc) 0 1 (fun x n i => sev sp n 1 (x i)) (fun x n i => sev sp n 2 (x i))
  (fun n => sev sp n 1) (fun n => sev sp n 2) kk [:: i] (fun _ _ _ => erefl) (fun _ _ _ => erefl) (fun n t => S n 1%N t isT).
rewrite subn0 mul0n add0n in H.
apply: (gradient_ext _ _ (H isT lk erefl x)) => [y|j lj]; first by rewrite bspl_derivE // => n t; exact: Z.
by rewrite /bspl_hessian bspl_derivE // => n t; exact: Z.
Qed.
Lemma bspl_integral m kk x : integral_splines sp -> (kk < dim * ns)%N ->
  gradient_at dim (fun y => bspl_antiderivative sp ns dim m.+1 y [:: kk]) x
    (fun i => if i == (kk %% dim)%N then bspl_antiderivative sp ns dim m x [:: kk] else 0) /\
  bspl_antiderivative sp ns dim 0 x [:: kk] = bspl_basis sp ns dim x [:: kk].
Proof.
move=> [D Z]; rewrite mulnC => lk; split.
  have E m' y : bspl_antiderivative sp ns dim m' y = fill 0 ns dim 0 (fun n i => santi sp n m' (y i)) by exact: fill0E.
  rewrite E; have H := @fill_integral dim ns (fun x n i => santi sp n m.+1 (x i)) (fun x n i => santi sp n m (x i))
    (fun n => santi sp n m.+1) (fun n => santi sp n m) kk x (fun _ _ _ => erefl) (fun _ _ _ => erefl) (fun n t _ => D n m t) lk.
  by apply: (gradient_ext _ _ H) => // y; rewrite E.
by rewrite /bspl_antiderivative /bspl_basis; congr (_ [:: kk]); apply: loop_ext => n s; apply: loop_ext => i s'; rewrite Z.
Qed.

(** Splines summing to one: the gradient of the column left out is minus the sum of the others
    on the same coordinate. *)
Lemma bspl_dropped x i d : smooth_splines sp k 1 -> (0 < ns)%N ->
  (forall t, rsum ns (fun n => sev sp n 0 t) = 1) -> (i < dim)%N -> (d < dim)%N ->
  bspl_deriv sp k ns dim false 1 x [:: (ns.-1 * dim + i)%N; d] =
  - rsum ns.-1 (fun n => bspl_deriv sp k ns dim true 1 x [:: (n * dim + i)%N; d]).
Proof.
move=> [S Z] n0 PU li ld.
have Z1 n t : (k < 1)%N -> sev sp n 1 t = 0 by exact: Z.
rewrite bspl_derivE // subn0.
rewrite (@rsum_ext ns.-1 _ (fun n => if d == i then sev sp n 1 (x i) else 0)); last first.
  move=> n ln; rewrite bspl_derivE // /bint subn1.
  case: (d =P i) => [->|di].
    exact: (@fill_diag 0 ns.-1 dim 1 (fun n i => sev sp n 1 (x i)) n i ln li).
  by rewrite fill_zero // => -[].
case: (d =P i) => [->|di]; last by rewrite rsum_0 fill_zero // ?Ropp_0 // => -[].
rewrite (@fill_diag 0 ns dim 1 (fun n i => sev sp n 1 (x i)) ns.-1 i) ?prednK // add0n.
have D0 : is_derive (fun t => rsum ns (fun n => sev sp n 0 t)) (x i) (rsum ns (fun n => sev sp n 1 (x i))).
  by apply: (@is_derive_rsum ns (fun n t => sev sp n 0 t) (fun n t => sev sp n 1 t)) => n ln; exact: S.
have D1 : is_derive (fun t => rsum ns (fun n => sev sp n 0 t)) (x i) 0.
  apply: (@is_derive_ext _ _ (fun _ => 1)); first by move=> t; rewrite PU.
  exact: is_derive_const.
have := is_derive_unique _ _ _ D0; rewrite (is_derive_unique _ _ _ D1).
case: ns n0 {PU D0 D1 Z1} => // q _ /=; lra.
Qed.
End BSpline.

(** ** Single spline *)
Lemma spl_derivE sp k dim m x j i : (0 < m <= k)%N -> (j < dim)%N ->
  exists2 D, spl_deriv sp k dim m x = Ok D &
    D (j :: nseq m i) = if i == j then sev sp 0 m (x j) else 0.
Proof.
move=> /andP[m0 mk] lj; rewrite /spl_deriv (ltnNge k) mk andbF; eexists; first by [].
case: (i =P j) => [->|ij].
  apply: (@loop_in _ _ _ _ _ j) => [|f|n f nr nj]; [lia | exact: tset_eq | ].
  by apply: tset_neq => -[E *]; apply: nj.
apply: loop_out => n f _; apply: tset_neq => -[E1 E2]; apply: ij.
by case: m m0 mk E2 => // m _ _ [] ->.
Qed.
Lemma spl_gradient sp k dim j x : smooth_splines sp k 1 -> (0 < k)%N -> (j < dim)%N ->
  exists2 D, spl_deriv sp k dim 1 x = Ok D &
  gradient_at dim (fun y => spl_basis sp y [:: j]) x (fun i => D [:: j; i]).
Proof.
move=> [S Z] k0 lj.
have E : spl_deriv sp k dim 1 x = Ok (loop 0 dim (fun i f => tset f (i :: nseq 1 i) (sev sp 0 1 (x i))) zeros).
  by rewrite /spl_deriv (ltnNge k) k0 andbF.
rewrite E; eexists; first by [].
apply: (@gradient_ext dim (fun y => sev sp 0 0 (y j)) _ _ (fun i => if i == j then sev sp 0 1 (x j) else 0)) => //.
  move=> i li; have [D] := @spl_derivE sp k dim 1 x j i k0 lj.
  by rewrite E => -[<-].
by apply: gradient_coord => //; apply: S.
Qed.
Lemma spl_hessian_gradient sp k dim j i x : smooth_splines sp k 2 -> (1 < k)%N -> (j < dim)%N ->
  exists D H, [/\ forall y, spl_deriv sp k dim 1 y = Ok (D y), spl_hessian sp k dim x = Ok H &
  gradient_at dim (fun y => D y [:: j; i]) x (fun d => H [:: j; i; d])].
Proof.
move=> [S Z] k1 lj.
exists (fun y => loop 0 dim (fun i f => tset f (i :: nseq 1 i) (sev sp 0 1 (y i))) zeros).
exists (loop 0 dim (fun i f => tset f (i :: nseq 2 i) (sev sp 0 2 (x i))) zeros).
split.
- by move=> y; rewrite /spl_deriv (ltnNge k) (ltnW k1) andbF.
- by rewrite /spl_hessian /spl_deriv (ltnNge k) k1 andbF.
case: (i =P j) => [->|ij].
  apply: (@gradient_ext dim (fun y => sev sp 0 1 (y j)) _ _ (fun d => if d == j then sev sp 0 2 (x j) else 0)).
  - move=> y; symmetry; apply: (@loop_in _ _ _ _ _ j) => [|f|n f nr nj]; [lia | exact: tset_eq | ].
    by apply: tset_neq => -[E *]; apply: nj.
  - move=> d ld; case: (d =P j) => [->|dj]; symmetry.
      apply: (@loop_in _ _ _ _ _ j) => [|f|n f nr nj]; [lia | exact: tset_eq | ].
      by apply: tset_neq => -[E *]; apply: nj.
    by apply: loop_out => n f _; apply: tset_neq => -[E1 _ E2]; apply: dj; rewrite E2 -E1.
  by apply: gradient_coord => //; apply: S.
apply: (@gradient_ext dim (fun _ => 0) _ _ (fun _ => 0)); last exact: gradient_const.
- by move=> y; symmetry; apply: loop_out => n f _; apply: tset_neq => -[E1 E2]; apply: ij; rewrite E2 -E1.
- by move=> d ld; symmetry; apply: loop_out => n f _; apply: tset_neq => -[E1 E2 *]; apply: ij; rewrite E2 -E1.
Qed.
Lemma spl_linear_refused sp dim x : (0 < dim)%N -> spl_hessian sp 1 dim x = Err ValueError.
Proof. by move=> d0; rewrite /spl_hessian /spl_deriv d0. Qed.

(** ** An example: the three quadratic Bernstein polynomials *)
Definition bern (n : nat) : seq R :=
  match n with 0%N => [:: 1; -2; 1] | 1%N => [:: 0; 2; -2] | 2%N => [:: 0; 0; 1] | _ => [::] end.
Definition bern_splines : splines :=
  Splines (fun n d => peval (pderiv d (bern n))) (fun n m => peval (pinteg m (bern n))).
Lemma size_pderiv d p : size (pderiv d p) = (size p - d)%N.
Proof. by elim: d => [|d IH] /=; rewrite ?subn0 // size_mkseq IH; lia. Qed.
Lemma bern_smooth : smooth_splines bern_splines 2 2.
Proof.
split=> [n d t _|n d t ld]; first exact: is_derive_peval.
rewrite /= (_ : pderiv d (bern n) = [::]) //; apply/size0nil; rewrite size_pderiv.
by case: n => [|[|[|n]]] /=; lia.
Qed.
Lemma bern_integral : integral_splines bern_splines.
Proof. by split=> // n m t; exact: is_derive_pinteg. Qed.
Lemma bern_unity t : rsum 3 (fun n => sev bern_splines n 0 t) = 1.
Proof. by rewrite /=; ring. Qed.
