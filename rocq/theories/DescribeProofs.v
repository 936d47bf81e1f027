(** * The merged description against the description of the pooled samples. *)
From mathcomp Require Import all_ssreflect all_algebra.
From mathcomp Require Import zify.
From Verif Require Import Base Describe.
Set Implicit Arguments.
Unset Strict Implicit.
Unset Printing Implicit Defensive.
Import Order.TTheory GRing.Theory Num.Theory.
Local Open Scope ring_scope.

(** ** Specification *)
Section Spec.
Variable R : realFieldType.
Implicit Types (x : seq R).

Definition is_min (m : R) x := m \in x /\ forall v, v \in x -> m <= v.
Definition is_max (m : R) x := m \in x /\ forall v, v \in x -> v <= m.
Definition mean_of x : R := (size x)%:R^-1 * \sum_(v <- x) v.
Definition variance_of x : R := (size x - 1)%:R^-1 * \sum_(v <- x) (v - mean_of x) ^+ 2.

End Spec.

Section Proofs.
Variable R : realFieldType.
Implicit Types (x : seq R).

Lemma foldl_min a x : is_min (foldl Num.min a x) (a :: x).
Proof.
elim: x a => [|b x IH] a /=; first by split; [rewrite inE | move=> v; rewrite inE => /eqP ->].
have [H1 H2] := IH (Num.min a b); split.
  move: H1; rewrite !inE => /orP[/eqP ->|->]; last by rewrite !orbT.
  by case: leP => _; rewrite eqxx ?orbT.
move=> v; rewrite !inE => /or3P[/eqP ->|/eqP ->|vx]; last by apply: H2; rewrite inE vx orbT.
  by apply: le_trans (H2 (Num.min a b) _) _; rewrite ?inE ?eqxx // le_minl lexx.
by apply: le_trans (H2 (Num.min a b) _) _; rewrite ?inE ?eqxx // le_minl lexx orbT.
Qed.

Lemma foldl_max a x : is_max (foldl Num.max a x) (a :: x).
Proof.
elim: x a => [|b x IH] a /=; first by split; [rewrite inE | move=> v; rewrite inE => /eqP ->].
have [H1 H2] := IH (Num.max a b); split.
  move: H1; rewrite !inE => /orP[/eqP ->|->]; last by rewrite !orbT.
  by case: leP => _; rewrite eqxx ?orbT.
move=> v; rewrite !inE => /or3P[/eqP ->|/eqP ->|vx]; last by apply: H2; rewrite inE vx orbT.
  by apply: le_trans (H2 (Num.max a b) _); rewrite ?inE ?eqxx // le_maxr lexx.
by apply: le_trans (H2 (Num.max a b) _); rewrite ?inE ?eqxx // le_maxr lexx orbT.
Qed.

(** What a description says of the samples it describes (variance apart). *)
Definition describes (d : describe_result R) x :=
  [/\ nobs d = size x, is_min (dmin d) x, is_max (dmax d) x & dmean d = mean_of x].

Lemma describe_ok x : (0 < size x)%N -> exists2 d, describe x = Ok d &
  describes d x /\ dvar d = (if size x == 1%N then None else Some (variance_of x)).
Proof.
case: x => [|a l] // _; eexists; first by [].
split; first by split=> //; [exact: foldl_min | exact: foldl_max | rewrite /mean_of mulrC].
rewrite /variance_of /mean_of subn1; case: l => [|b l] //; congr Some; rewrite [LHS]mulrC.
by congr (_ * _); apply: eq_bigr => v _; congr ((v - _) ^+ 2); exact: mulrC.
Qed.

Lemma describes_inhabited d x : describes d x -> (0 < size x)%N.
Proof. by case=> _ [+ _] _ _; case: x. Qed.

Lemma describes_cat d1 d2 x1 x2 : describes d1 x1 -> describes d2 x2 ->
  describes (sum_describe d1 d2) (x1 ++ x2).
Proof.
move=> D1 D2; have s1 := describes_inhabited D1; have s2 := describes_inhabited D2.
case: D1 D2 => n1 [m1 l1] [M1 L1] e1 [n2 [m2 l2] [M2 L2] e2]; split=> /=.
- by rewrite size_cat n1 n2.
- split; first by rewrite mem_cat; case: leP => _; rewrite ?m1 ?m2 ?orbT.
  by move=> v; rewrite mem_cat le_minl => /orP[/l1 ->|/l2 ->] //; rewrite orbT.
- split; first by rewrite mem_cat; case: leP => _; rewrite ?M1 ?M2 ?orbT.
  by move=> v; rewrite mem_cat le_maxr => /orP[/L1 ->|/L2 ->] //; rewrite orbT.
- rewrite e1 e2 n1 n2 /mean_of big_cat size_cat /= mulrC; congr (_ * _).
  have N1 : (size x1)%:R != 0 :> R by rewrite pnatr_eq0; lia.
  have N2 : (size x2)%:R != 0 :> R by rewrite pnatr_eq0; lia.
  by congr (_ + _); rewrite mulrC mulrA mulfV ?mul1r.
Qed.

Lemma describe_data_ok (trajs : seq (seq R)) :
  (0 < size trajs)%N -> (forall t, t \in trajs -> (0 < size t)%N) ->
  exists2 d, describe_data trajs = Ok d &
    describes d (flatten trajs) /\
    dvar d = (if size (head [::] trajs) == 1%N then None else Some (variance_of (head [::] trajs))).
Proof.
case: trajs => [|t ts] // _ H; rewrite /describe_data /=.
have [d -> [D V]] := describe_ok (H t (mem_head _ _)); rewrite /=.
have : forall s, s \in ts -> (0 < size s)%N by move=> s ss; apply: H; rewrite inE ss orbT.
rewrite -V; move: D => {H V}; move: (t) d; elim: ts => [|u ts IH] x d D H /=.
  by exists d => //; rewrite cats0.
have [e -> [E _]] := describe_ok (H u (mem_head _ _)); rewrite /=.
have [||f Ef [F V]] := IH (x ++ u) (sum_describe d e).
- exact: describes_cat.
- by move=> s ss; apply: H; rewrite inE ss orbT.
move: Ef; case: (mapM _ ts) => [ds|] //= [Ef]; exists f; first by rewrite -Ef.
by rewrite catA.
Qed.

Lemma is_min_uniq m m' x x' : is_min m x -> is_min m' x' -> x =i x' -> m = m'.
Proof.
by move=> [a b] [a' b'] E; apply/eqP; rewrite eq_le b ?b' ?E -?E //; rewrite E.
Qed.

Lemma is_max_uniq m m' x x' : is_max m x -> is_max m' x' -> x =i x' -> m = m'.
Proof.
by move=> [a b] [a' b'] E; apply/eqP; rewrite eq_le b' -?E // b // E.
Qed.

Lemma perm_flatten (T : eqType) (s t : seq (seq T)) : perm_eq s t -> perm_eq (flatten s) (flatten t).
Proof.
move=> H; apply/permP => p; rewrite !count_flatten.
by rewrite !sumnE !big_map; apply: perm_big.
Qed.

Lemma describe_data_perm (trajs trajs' : seq (seq R)) d d' :
  (forall t, t \in trajs -> (0 < size t)%N) -> perm_eq trajs trajs' ->
  describe_data trajs = Ok d -> describe_data trajs' = Ok d' ->
  [/\ nobs d = nobs d', dmin d = dmin d', dmax d = dmax d' & dmean d = dmean d'].
Proof.
move=> H P E E'.
have s0 : (0 < size trajs)%N by case: (trajs) E.
have [e] := describe_data_ok s0 H; rewrite E => -[<-] [[n1 a1 b1 c1] _].
have [||e'] := @describe_data_ok trajs'; first by rewrite -(perm_size P).
  by move=> t; rewrite -(perm_mem P); exact: H.
rewrite E' => -[<-] [[n2 a2 b2 c2] _].
have Pf := perm_flatten P; split.
- by rewrite n1 n2 (perm_size Pf).
- exact: is_min_uniq a1 a2 (perm_mem Pf).
- exact: is_max_uniq b1 b2 (perm_mem Pf).
- by rewrite c1 c2 /mean_of (perm_size Pf) (perm_big _ Pf).
Qed.

(** The variance of the first trajectory is not that of the pooled samples. *)
Definition far_apart : seq (seq R) := [:: [:: 0; 2%:R]; [:: 10%:R; 12%:R]].

Lemma variance_refuted : exists (trajs : seq (seq R)) d,
  [/\ forall t, t \in trajs -> (1 < size t)%N, describe_data trajs = Ok d
    & dvar d <> Some (variance_of (flatten trajs))].
Proof.
have [||d E [_ V]] := @describe_data_ok far_apart; first by [].
  by move=> t; rewrite !inE => /orP[] /eqP ->.
exists far_apart, d; split=> //; first by move=> t; rewrite !inE => /orP[] /eqP ->.
rewrite V /= => -[]; rewrite /variance_of /mean_of /= !big_cons !big_nil /= !add0r !addr0.
rewrite !subn1 /= invr1 mul1r.
have -> : 2%:R^-1 * 2%:R = 1 :> R by rewrite mulVf ?pnatr_eq0.
have -> : 4%:R^-1 * (2%:R + (10%:R + 12%:R)) = 6%:R :> R.
  by rewrite -!natrD (_ : (2 + (10 + 12) = 4 * 6)%N) // natrM mulKf ?pnatr_eq0.
have -> : 2%:R - 6%:R = - 4%:R :> R by rewrite -opprB -natrB.
rewrite -!(natrB R) // -(natrB R (_ : (1 <= 2)%N)) // !sqrrN !expr1n -!natrX -!natrD.
move/(f_equal ( *%R 3%:R)); rewrite mulrA mulfV ?pnatr_eq0 // mul1r -(natrD R 1 1) -natrM.
by move/eqP; rewrite eqr_nat.
Qed.

End Proofs.
