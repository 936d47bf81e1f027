(** * Free energy: lemmas. *)
From Coq Require Import Reals Lra Lia.
From Coquelicot Require Import Coquelicot.
From mathcomp Require Import all_ssreflect zify.
From Verif Require Import Base Colored ColoredProofs ColoredProofs3 ColoredProofs4 Basis Calculus BasisProofs BasisVector Pmf.
Set Implicit Arguments.
Unset Strict Implicit.
Unset Printing Implicit Defensive.
Local Open Scope R_scope.

(** ** Minimum *)
Lemma foldl_min_le y ys j : (j <= size ys)%N -> foldl Rmin y ys <= nth 0 (y :: ys) j.
Proof.
elim: ys y j => [|z ys IH] y [|j] lj //=; first lra.
  by apply: Rle_trans (IH (Rmin y z) 0%N isT) (Rmin_l _ _).
case: j lj => [|j] lj /=.
  by apply: Rle_trans (IH (Rmin y z) 0%N isT) (Rmin_r _ _).
exact: (IH (Rmin y z) j.+1).
Qed.
Lemma foldl_min_in y ys : exists2 j, (j <= size ys)%N & foldl Rmin y ys = nth 0 (y :: ys) j.
Proof.
elim: ys y => [|z ys IH] y /=; first by exists 0%N.
have [[|j] lj ->] := IH (Rmin y z).
  by rewrite /= /Rmin; case: (Rle_dec y z) => h; [exists 0%N | exists 1%N].
by exists j.+2.
Qed.

Lemma flatten_nth (s : seq (seq R)) j : (j < size (flatten s))%N ->
  exists i l, [/\ (i < size s)%N, (l < size (nth [::] s i))%N & nth 0 (flatten s) j = nth 0 (nth [::] s i) l].
Proof.
elim: s j => // r s IH j /=; rewrite size_cat nth_cat; case E: (j < size r)%N => lj.
  by exists 0%N, j.
have [|i [l [h1 h2 ->]]] := IH (j - size r)%N; first by move: E lj; lia.
by exists i.+1, l.
Qed.
Lemma flatten_index (s : seq (seq R)) i l : (i < size s)%N -> (l < size (nth [::] s i))%N ->
  exists2 j, (j < size (flatten s))%N & nth 0 (flatten s) j = nth 0 (nth [::] s i) l.
Proof.
elim: s i => // r s IH [|i] li ll /=; rewrite size_cat.
  by exists l; [move: ll => /=; lia | rewrite nth_cat ll].
have [j lj E] := IH i li ll; exists (size r + j)%N; first lia.
by rewrite nth_cat ltnNge leq_addr /= addKn.
Qed.

Definition entry (P : seq (seq R)) (i l : nat) : R := nth 0 (nth [::] P i) l.
Definition inside (P : seq (seq R)) (i l : nat) : Prop := (i < size P)%N /\ (l < size (nth [::] P i))%N.

Lemma size_subtract z P : size (subtract z P) = size P. Proof. by rewrite size_map. Qed.
Lemma nth_subtract z P i : nth [::] (subtract z P) i = map (fun y => y - z) (nth [::] P i).
Proof.
case: (ltnP i (size P)) => li; first by rewrite (nth_map [::]).
by rewrite !nth_default // size_map.
Qed.
Lemma inside_subtract z P i l : inside (subtract z P) i l <-> inside P i l.
Proof. by rewrite /inside size_subtract nth_subtract size_map. Qed.
Lemma entry_subtract z P i l : inside P i l -> entry (subtract z P) i l = entry P i l - z.
Proof. by case=> li ll; rewrite /entry nth_subtract (nth_map 0). Qed.

Lemma np_min_spec P z : np_min P = Ok z -> (forall i l, inside P i l -> z <= entry P i l) /\
  exists i l, inside P i l /\ z = entry P i l.
Proof.
rewrite /np_min; case E: (flatten P) => [|y ys] // [<-]; split.
  move=> i l [li ll]; have [j] := flatten_index li ll; rewrite E => lj; rewrite /entry => <-.
  exact: foldl_min_le.
have [j lj ->] := foldl_min_in y ys.
have [|i [l [h1 h2 h3]]] := @flatten_nth P j; first by rewrite E.
by exists i, l; split=> //; rewrite /entry -h3 E.
Qed.

Lemma zeroed_spec b P Q : zeroed b P = Ok Q ->
  exists2 z, np_min P = Ok z & Q = subtract (float_of b * z) P.
Proof. by rewrite /zeroed => h; unbind h z Ez; exists z => //; case: h. Qed.
Lemma zeroed_true P Q : zeroed true P = Ok Q -> (forall i l, inside Q i l -> 0 <= entry Q i l) /\
  exists i l, inside Q i l /\ entry Q i l = 0.
Proof.
move=> /zeroed_spec[z Ez ->]; have [M [i [l [h e]]]] := np_min_spec Ez; rewrite /= Rmult_1_l; split.
  by move=> j m /inside_subtract hj; rewrite entry_subtract //; have := M _ _ hj; lra.
by exists i, l; split; [apply/inside_subtract | rewrite entry_subtract // e; lra].
Qed.
Lemma zeroed_diff P Q Q' : zeroed true P = Ok Q -> zeroed false P = Ok Q' -> Q' = P /\
  (forall i l, inside Q i l <-> inside Q' i l) /\
  forall i l j m, inside Q i l -> inside Q j m -> entry Q i l - entry Q j m = entry Q' i l - entry Q' j m.
Proof.
move=> /zeroed_spec[z Ez ->] /zeroed_spec[z' _ ->].
have E : subtract (float_of false * z') P = P.
  rewrite /subtract -[RHS]map_id; apply: eq_map => r; rewrite -[RHS]map_id; apply: eq_map => y /=; ring.
rewrite E; split=> //; split; first by move=> i l; exact: inside_subtract.
by move=> i l j m /inside_subtract h1 /inside_subtract h2; rewrite !entry_subtract //; ring.
Qed.
Lemma zeroed_ok P : (exists i l, inside P i l) -> forall b, exists Q, zeroed b P = Ok Q.
Proof.
move=> [i [l [li ll]]] b; have [j lj _] := flatten_index li ll; rewrite /zeroed /np_min.
by case: (flatten P) lj => // y ys _ /=; eexists.
Qed.

(** ** Derivative *)
Lemma gradient_scal d f x g k : gradient_at d f x g -> gradient_at d (fun y => k * f y) x (fun i => k * g i).
Proof.
move=> G; have H := gradient_mult (gradient_const d k x) G.
by apply: (gradient_ext _ _ H) => // i li; rewrite Rmult_0_l Rplus_0_l.
Qed.
Lemma gradient_plus d f f' x g g' : gradient_at d f x g -> gradient_at d f' x g' ->
  gradient_at d (fun y => f y + f' y) x (fun i => g i + g' i).
Proof.
move=> G G' eps e0; have [d1 p1 H1] := G (eps / 2) ltac:(lra); have [d2 p2 H2] := G' (eps / 2) ltac:(lra).
exists (Rmin d1 d2) => [|y Hy]; first exact: Rmin_pos.
have B1 := H1 y (fun i li => Rlt_le_trans _ _ _ (Hy i li) (Rmin_l _ _)).
have B2 := H2 y (fun i li => Rlt_le_trans _ _ _ (Hy i li) (Rmin_r _ _)).
have -> : rsum d (fun i => (g i + g' i) * (y i - x i)) = rsum d (fun i => g i * (y i - x i)) + rsum d (fun i => g' i * (y i - x i)).
  by rewrite -rsum_plus; apply: rsum_ext => i _; ring.
have T := Rabs_triang (f y - f x - rsum d (fun i => g i * (y i - x i))) (f' y - f' x - rsum d (fun i => g' i * (y i - x i))).
set S := rsum d (fun i => Rabs _) in B1 B2 *.
apply: (Rle_trans _ _ _ _ (_ : eps / 2 * S + eps / 2 * S <= eps * S)); last by right; field.
apply: Rle_trans (Rplus_le_compat _ _ _ _ B1 B2).
apply: Rle_trans T; right; congr Rabs; ring.
Qed.
Lemma gradient_rsum d n (f : nat -> (nat -> R) -> R) x (g : nat -> nat -> R) :
  (forall k, (k < n)%N -> gradient_at d (f k) x (g k)) ->
  gradient_at d (fun y => rsum n (fun k => f k y)) x (fun i => rsum n (fun k => g k i)).
Proof.
elim: n => [|n IH] H; first exact: gradient_const.
by apply: gradient_plus; [apply: IH => k lk; apply: H; lia | apply: H].
Qed.

(** The antiderivative of a basis: column [k] is integrated along its own coordinate. *)
Definition antiderivative_of (n dim : nat) (A b : point -> tens) : Prop :=
  forall k x, (k < n)%N -> gradient_at dim (fun y => A y [:: k]) x (fun i => if i == (k %% dim)%N then b x [:: k] else 0).

Section Gradient.
Variables (n dim : nat) (A b : point -> tens) (c mass : matrix) (kT : R).
Hypothesis HA : antiderivative_of n dim A b.
Definition phi (x : point) (l : nat) : R := matvec dim (fun m => -1 * dot_coeffs n (A x) c m) mass l / kT.
(** In general. *)
Lemma phi_gradient x l : gradient_at dim (fun y => phi y l) x (fun i =>
  matvec dim (fun m => -1 * rsum n (fun k => (if i == (k %% dim)%N then b x [:: k] else 0) * c k m)) mass l / kT).
Proof.
apply: (@gradient_ext dim (fun y => / kT * rsum dim (fun m => mass m l * (-1 * rsum n (fun k => c k m * A y [:: k])))) _ _
  (fun i => / kT * rsum dim (fun m => mass m l * (-1 * rsum n (fun k => c k m * (if i == (k %% dim)%N then b x [:: k] else 0)))))).
- move=> y; rewrite /phi /matvec /dot_coeffs /Rdiv Rmult_comm; congr (_ * _); apply: rsum_ext => m _.
  rewrite Rmult_comm; congr (_ * _ * _); apply: rsum_ext => k _; ring.
- move=> i _; rewrite /matvec /Rdiv Rmult_comm; congr (_ * _); apply: rsum_ext => m _.
  rewrite Rmult_comm; congr (_ * _ * _); apply: rsum_ext => k _; ring.
apply: gradient_scal; apply: gradient_rsum => m lm; apply: gradient_scal; apply: gradient_scal.
by apply: gradient_rsum => k lk; apply: gradient_scal; exact: HA.
Qed.
(** When the force along [m] only involves the functions of coordinate [m], and the mass is
    diagonal. *)
Hypothesis c_sep : forall k m, (k < n)%N -> (m < dim)%N -> (k %% dim)%N <> m -> c k m = 0.
Hypothesis m_diag : forall m l, (m < dim)%N -> (l < dim)%N -> m <> l -> mass m l = 0.
Lemma phi_force x l : (l < dim)%N -> gradient_at dim (fun y => phi y l) x (fun i =>
  if i == l then - force_eval n b c x l * mass l l / kT else 0).
Proof.
move=> ll; apply: (gradient_ext _ _ (phi_gradient x l)) => // i li.
rewrite /matvec (@rsum_one dim _ l) //; last by move=> m lm ml; rewrite m_diag // Rmult_0_r.
case: (i =P l) => [->|il].
  rewrite /force_eval /dot_coeffs (@rsum_ext n _ (fun k => b x [:: k] * c k l)); first by rewrite /Rdiv; ring.
  by move=> k lk; case: (l =P (k %% dim)%N) => // h; rewrite c_sep ?Rmult_0_l ?Rmult_0_r // => e; apply: h.
rewrite (@rsum_ext n _ (fun _ => 0)) ?rsum_0 /Rdiv; first ring.
move=> k lk; case: (i =P (k %% dim)%N) => h; last by rewrite Rmult_0_l.
by rewrite c_sep ?Rmult_0_r // -h.
Qed.
End Gradient.

(** ** What pmf_eval returns *)
Lemma pmf_evalE n dim A c kT eff_mass xs :
  kT <> 0 -> xs <> [::] -> (0 < dim)%N ->
  (forall mr mc M, eff_mass = Some (mr, mc, M) -> mr = dim /\ mc = dim) ->
  let mass := (odflt (dim, dim, identity) eff_mass).2 in
  pmf_eval n dim dim A c kT eff_mass xs false = Ok (map (fun x => mkseq (phi n dim A c mass kT x) dim) xs) /\
  exists Q, pmf_eval n dim dim A c kT eff_mass xs true = Ok Q.
Proof.
move=> k0 x0 d0 Hm mass.
have E b : pmf_eval n dim dim A c kT eff_mass xs b = zeroed b (map (fun x => mkseq (phi n dim A c mass kT x) dim) xs).
  rewrite /pmf_eval /mass; case: eff_mass Hm {mass} => [[[mr mc] M]|] Hm /=; last by rewrite eqxx /=; case: (Req_EM_T kT 0).
  by have [-> ->] := Hm _ _ _ erefl; rewrite eqxx /=; case: (Req_EM_T kT 0).
have N : exists i l, inside (map (fun x => mkseq (phi n dim A c mass kT x) dim) xs) i l.
  by exists 0%N, 0%N; case: xs x0 {E} => // x xs _; rewrite /inside /= size_mkseq.
rewrite !E; split; last exact: zeroed_ok.
have [Q EQ] := zeroed_ok N true; have [Q' EQ'] := zeroed_ok N false.
by rewrite EQ'; have [-> _] := zeroed_diff EQ EQ'.
Qed.
Lemma pmf_eval_overdampedE n dim A c kT xs b : kT <> 0 ->
  pmf_eval_overdamped n dim A c kT xs b = pmf_eval n dim dim A c kT None xs b.
Proof.
move=> k0; rewrite /pmf_eval_overdamped /pmf_eval /= eqxx /=; case: (Req_EM_T kT 0) => //= _.
congr zeroed; apply: eq_map => x; apply: (@eq_from_nth _ 0); rewrite ?size_mkseq // => l ll.
rewrite !nth_mkseq // /matvec; congr (_ / _).
rewrite (@rsum_one dim _ l) //; first by rewrite /identity eqxx Rmult_1_r.
by move=> m lm ml; rewrite /identity; case: (m =P l) => // _; rewrite Rmult_0_r.
Qed.
