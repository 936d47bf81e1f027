(** * Basis vectors along trajectories, composite bases: lemmas. *)
From Coq Require Import Reals Lra Lia.
From Coquelicot Require Import Coquelicot.
From mathcomp Require Import all_ssreflect zify.
From Verif Require Import Base Colored ColoredProofs ColoredProofs3 ColoredProofs4 Basis Calculus BasisProofs BasisVector.
Set Implicit Arguments.
Unset Strict Implicit.
Unset Printing Implicit Defensive.
Local Open Scope R_scope.

(** ** What a basis object should be

    With the flag at [b], [deriv] has [n] columns, the [k]-th being the gradient of column
    [col k] of [basis]. *)
Definition diff_obj (dim : nat) (o : obj) (b : bool) (n : nat) (col : nat -> nat) : Prop :=
  (forall x, (dfn o b x).1 = n) /\
  forall k, (k < n)%N ->
    has_gradient dim (fun y => (fn o y).2) (fun y => (dfn o b y).2) (col k) k [::].
(** The same for [hessian] and [deriv]. *)
Definition twice_obj (dim : nat) (o : obj) (b : bool) (n : nat) : Prop :=
  (forall x, (hfn o b x).1 = n) /\
  forall k i, (k < n)%N -> (i < dim)%N ->
    has_gradient dim (fun y => (dfn o b y).2) (fun y => (hfn o b y).2) k k [:: i].

Lemma lin_diff dim centered mean b : diff_obj dim (lin_obj dim centered mean) b dim id.
Proof. by split=> // k lk; exact: lin_gradient. Qed.
Lemma lin_twice dim centered mean b : twice_obj dim (lin_obj dim centered mean) b dim.
Proof. by split=> // k i lk li; exact: lin_hessian_gradient. Qed.
Lemma poly_diff P deg dim rc b : diff_obj dim (poly_obj P deg dim rc) b (dim * (deg.+1 - bint b)) (fun k => bint b * dim + k)%N.
Proof. by split=> // k lk; exact: poly_gradient. Qed.
Lemma poly_twice P deg dim rc b : twice_obj dim (poly_obj P deg dim rc) b (dim * (deg.+1 - bint b)).
Proof. by split=> // k i lk li; exact: poly_gradient_next. Qed.
Lemma four_diff order freq dim rc b : diff_obj dim (four_obj order freq dim rc) b (dim * (four_order order - bint b)) (fun k => bint b * dim + k)%N.
Proof. by split=> // k lk; exact: four_gradient. Qed.
Lemma four_twice order freq dim rc b : twice_obj dim (four_obj order freq dim rc) b (dim * (four_order order - bint b)).
Proof. by split=> // k i lk li; exact: four_hessian_gradient. Qed.

(** ** Time derivatives *)
Definition trajectory (dim : nat) (X V : R -> point) : Prop :=
  forall t i, (i < dim)%N -> is_derive (fun s => X s i) t (V t i).

Lemma basis_rate dim o b n col X V t k : diff_obj dim o b n col -> trajectory dim X V -> (k < n)%N ->
  is_derive (fun s => (fn o (X s)).2 [:: col k]) t ((dot1 dim (dfn o b (X t)) (V t)).2 [:: k]).
Proof.
move=> [_ H] T lk.
exact: (@gradient_chain dim (fun y => (fn o y).2 [:: col k]) X t _ (V t) (H k lk (X t)) (fun i li => T t i li)).
Qed.

Lemma kernel_rate dim o b n X V A t k : twice_obj dim o b n -> trajectory dim X V -> trajectory dim V A -> (k < n)%N ->
  is_derive (fun s => (dot1 dim (dfn o b (X s)) (V s)).2 [:: k]) t
    ((add_arr (dot1 dim (dfn o b (X t)) (A t)) (dot2 dim (hfn o b (X t)) (V t))).2 [:: k]).
Proof.
move=> [_ H] TV TA lk /=.
have -> : rsum dim (fun i => (dfn o b (X t)).2 [:: k; i] * A t i) +
    rsum dim (fun i => rsum dim (fun j => (hfn o b (X t)).2 [:: k; i; j] * V t i * V t j)) =
  rsum dim (fun i => rsum dim (fun j => (hfn o b (X t)).2 [:: k; i; j] * V t j) * V t i + (dfn o b (X t)).2 [:: k; i] * A t i).
  rewrite rsum_plus Rplus_comm; congr (_ + _); apply: rsum_ext => i li.
  by rewrite rsum_mulr; apply: rsum_ext => j lj; ring.
apply: (@is_derive_rsum dim (fun i s => (dfn o b (X s)).2 [:: k; i] * V s i)
  (fun i s => rsum dim (fun j => (hfn o b (X s)).2 [:: k; i; j] * V s j) * V s i + (dfn o b (X s)).2 [:: k; i] * A s i)) => i li.
apply/is_derive_Reals; apply: (@derivable_pt_lim_mult (fun s => (dfn o b (X s)).2 [:: k; i]) (fun s => V s i)); apply/is_derive_Reals.
- exact: (@gradient_chain dim (fun y => (dfn o b y).2 [:: k; i]) X t _ (V t) (H k i lk li (X t)) (fun j lj => TV t j lj)).
- exact: TA.
Qed.

(** Underdamped classes: the kernel basis is the rate of the basis functions, dE its rate. *)
Lemma underdamped_rates c dim o n col X V A t k : c = PosGle \/ c = WithFriction ->
  diff_obj dim o (flag o) n col -> twice_obj dim o (flag o) n ->
  trajectory dim X V -> trajectory dim V A -> (k < n)%N ->
  let E s := (corrs_vector c (init_basis c o) dim (X s) (V s) (A s)).1.2 in
  let dE s := (corrs_vector c (init_basis c o) dim (X s) (V s) (A s)).2 in
  [/\ (E t).1 = n, (dE t).1 = n,
      is_derive (fun s => (fn o (X s)).2 [:: col k]) t ((E t).2 [:: k]) &
      is_derive (fun s => (E s).2 [:: k]) t ((dE t).2 [:: k])].
Proof.
move=> [] -> H1 H2 TV TA lk /=; split.
- by case: H1 => + _; exact.
- by case: H1 => + _; exact.
- exact: (basis_rate t H1 TV lk).
- exact: (kernel_rate t H2 TV TA lk).
- by case: H1 => + _; exact.
- by case: H1 => + _; exact.
- exact: (basis_rate t H1 TV lk).
- exact: (kernel_rate t H2 TV TA lk).
Qed.

(** The other classes: dE is the rate of E, column by column. *)
Lemma other_rates c dim o n X V A t k : c <> PosGle -> c <> WithFriction ->
  (forall x, (fn o x).1 = n) -> diff_obj dim o false n id ->
  trajectory dim X V -> trajectory dim V A ->
  let E s := (corrs_vector c (init_basis c o) dim (X s) (V s) (A s)).1.2 in
  let dE s := (corrs_vector c (init_basis c o) dim (X s) (V s) (A s)).2 in
  (k < (E t).1)%N -> (dE t).1 = (E t).1 /\ is_derive (fun s => (E s).2 [:: k]) t ((dE t).2 [:: k]).
Proof.
move=> c1 c2 Hn H1 TV TA; case: c c1 c2 => //= _ _.
- by rewrite Hn /deriv H1.1 => lk; split=> //; exact: (basis_rate t H1 TV lk).
- by move=> lk; split=> //; exact: TA.
- rewrite Hn /deriv H1.1 => lk; split=> //.
  case h: (k < dim)%N; first exact: TA.
  by apply: (basis_rate t H1 TV); lia.
- by rewrite Hn /deriv H1.1 => lk; split=> //; exact: (basis_rate t H1 TV lk).
Qed.
