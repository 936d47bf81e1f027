(** * Properties C53, C59: the element finder of the finite element basis. *)
From Coq Require Import Reals Lra.
From mathcomp Require Import all_ssreflect.
From Verif Require Import Base Finder FinderProofs.
Set Implicit Arguments.
Unset Strict Implicit.
Unset Printing Implicit Defensive.
Local Open Scope R_scope.

(** C53. The array passed to the one dimensional finder is left unchanged exactly when no sample
    is at the last point of the mesh. *)
Theorem C53_unchanged_partial eps m X e X' : 0 < eps -> find_element_1D eps m X = Ok (e, X') ->
  X' = X <-> forall x, List.In x X -> x <> max_point m.
Proof.
rewrite /find_element_1D => e0; case: (pts m) => // p0 ps; case: (left_of m) => // l0 ls [_ <-].
by have [h1 h2] := shifted_id m X e0; split.
Qed.
(** Only such samples are changed, by [eps]. *)
Theorem C53_changed eps m X e X' : find_element_1D eps m X = Ok (e, X') ->
  [/\ size X' = size X, size e = size X & forall i, (i < size X)%N ->
  nth 0 X' i = nth 0 X i \/ (nth 0 X i = max_point m /\ nth 0 X' i = nth 0 X i - eps)].
Proof.
rewrite /find_element_1D; case: (pts m) => // p0 ps; case: (left_of m) => // l0 ls [<- <-].
rewrite !size_map; split=> // i li; rewrite (nth_map 0) //.
by case: ReqbP => h; [right | left].
Qed.
(** The values and the derivatives asked one after the other are those of the same cells. *)
Theorem C53_twice eps m X e X' : 0 < eps -> find_element_1D eps m X = Ok (e, X') ->
  find_element_1D eps m X' = Ok (e, X').
Proof. exact: find1_twice. Qed.
Definition unit_line : mesh1 := Mesh1 [:: 0; 1; 2] [:: 0; 1]%N [:: 1; 2]%N.
Lemma unit_line_mesh : line_mesh unit_line 2.
Proof.
split=> //=; first by case=> [|[|i]] // [|[|[|j]]] //= _ _; lra.
by case=> [|[|i]].
Qed.
Theorem C53_refuted : exists m X e X', 0 < 1 / 10 /\ find_element_1D (1 / 10) m X = Ok (e, X') /\ X' <> X.
Proof.
exists unit_line, [:: 2]; rewrite find1E //; do 2!eexists; split; first lra; split; first by [].
have e0 : 0 < 1 / 10 by lra.
move/(shifted_id _ _ e0) => /(_ 2 (or_introl erefl)).
by rewrite (max_pointE unit_line_mesh).
Qed.
Print Assumptions C53_unchanged_partial.
Print Assumptions C53_changed.
Print Assumptions C53_twice.
Print Assumptions C53_refuted.
Example C53_example : exists e, find_element_1D (1 / 10) unit_line [:: 1 / 2; 3 / 2] = Ok (e, [:: 1 / 2; 3 / 2]).
Proof.
rewrite find1E //; eexists; congr (Ok (_, _)).
have e0 : 0 < 1 / 10 by lra.
apply/(shifted_id _ _ e0) => x; rewrite (max_pointE unit_line_mesh) /=; case=> [<-|[<-|//]]; lra.
Qed.

(** C59. In one dimension, on a mesh with increasing points, the element found contains the
    point, ends included. *)
Theorem C59_1d_partial eps m n X : line_mesh m n -> (0 < n)%N -> 0 < eps ->
  eps <= nth 0 (pts m) n - nth 0 (pts m) n.-1 ->
  (forall x, List.In x X -> nth 0 (pts m) 0 <= x <= nth 0 (pts m) n) ->
  exists e X', find_element_1D eps m X = Ok (e, X') /\ forall i, (i < size X)%N ->
  (nth 0%N e i < size (left_of m))%N /\ contains m (nth 0%N e i) (nth 0 X i).
Proof.
move=> M n0 e0 ew hX; have [p0 l0] := line_mesh_ne M n0; rewrite find1E //.
do 2!eexists; split; first by []; move=> i li; rewrite (nth_map 0) //.
by apply: (cell_right M) => //; apply: hX; exact: In_nth.
Qed.
(** Outside the mesh the first element is returned, without a word. *)
Theorem C59_outside eps m n X : line_mesh m n -> (0 < n)%N ->
  (forall x, List.In x X -> x < nth 0 (pts m) 0 \/ nth 0 (pts m) n < x) ->
  exists X', find_element_1D eps m X = Ok (nseq (size X) 0%N, X').
Proof.
move=> M n0 hX; have [p0 l0] := line_mesh_ne M n0; rewrite find1E //; eexists; congr (Ok (_, _)).
elim: X hX => //= x X IH hX; rewrite IH; last by move=> y hy; apply: hX; right.
by rewrite (cell_outside eps M) //; apply: hX; left.
Qed.
(** When the points of the mesh are not stored in increasing order, another element. *)
Definition unsorted_line : mesh1 := Mesh1 [:: 0; 2; 1] [:: 0; 2]%N [:: 2; 1]%N.
Theorem C59_unsorted_refuted : exists m x e X', find_element_1D (1 / 10) m [:: x] = Ok ([:: e], X') /\
  ~ contains m e x /\ exists c, (c < size (left_of m))%N /\ contains m c x.
Proof.
exists unsorted_line, (3 / 2); rewrite find1E //=; do 2!eexists; split; first by [].
have -> : cell_of (1 / 10) unsorted_line (3 / 2) = 0%N.
  rewrite /cell_of; case: ReqbP => [|_].
    by rewrite /max_point /= (Rmax_left 1 0) ?(Rmax_left 2 1) ?(Rmax_right 0 2); lra.
  rewrite /digitize /bins count_sorted /= /Rleb.
  case: (Rle_dec 0 (3 / 2)) => h1; last by exfalso; lra.
  case: (Rle_dec 2 (3 / 2)) => h2; first by exfalso; lra.
  by case: (Rle_dec 1 (3 / 2)) => h3; last by exfalso; lra.
split; first by rewrite /contains /=; lra.
by exists 1%N; split=> //; rewrite /contains /=; lra.
Qed.
(** In two dimensions: right when an element around the point is among the five answers of the
    search tree... *)
Theorem C59_2d_partial mach ts query x : proper ts -> tree5 ts query -> (5 <= size ts)%N -> 0 <= mach ->
  exists2 e, find_one mach ts (query x) x = Ok e & (e < size ts)%N /\
  ((exists2 c, c \in query x & in_triangle (nth t0 ts c) x) -> near_triangle mach (nth t0 ts e) x).
Proof.
move=> P Q l5 m0; have [A U] := nearest_all (Q x) l5.
have q0 : query x <> [::] by move=> e; have := nr_size (Q x); rewrite e.
have [e E [ein h]] := find_one_in mach x P A q0; exists e => //; split; first exact: (allP A).
by case=> c hc hin; apply: h; exists c => //; apply: near_widen m0 _; apply/near_zero.
Qed.
(** ...as it is on meshes of five elements. *)
Theorem C59_five_partial mach ts query x : proper ts -> tree5 ts query -> size ts = 5%N -> 0 <= mach ->
  (exists2 c, (c < 5)%N & in_triangle (nth t0 ts c) x) ->
  exists2 e, find_one mach ts (query x) x = Ok e & near_triangle mach (nth t0 ts e) x.
Proof. exact: find_five. Qed.
(** Fewer are refused... *)
Theorem C59_few_refuted mach ts query x : proper ts -> tree5 ts query -> (size ts < 5)%N ->
  find_one mach ts (query x) x = Err OutOfBounds.
Proof. exact: find_few. Qed.
(** ...with more a long element is missed, and the point given to one it is not in. *)
Theorem C59_long_refuted : exists ts x, [/\ size ts = 6%N, proper ts, in_triangle (nth t0 ts 0) x &
  forall mach query, 0 <= mach < 1 / 100 -> tree5 ts query ->
  exists2 e, find_one mach ts (query x) x = Ok e & ~ near_triangle mach (nth t0 ts e) x].
Proof.
exists fan, missed; split=> //; [exact: fan_proper | exact: fan_contains |].
by move=> mach query; exact: fan_wrong.
Qed.
Print Assumptions C59_1d_partial.
Print Assumptions C59_outside.
Print Assumptions C59_unsorted_refuted.
Print Assumptions C59_2d_partial.
Print Assumptions C59_five_partial.
Print Assumptions C59_few_refuted.
Print Assumptions C59_long_refuted.
Example C59_example : line_mesh unit_line 2 /\ 1 / 10 <= nth 0 (pts unit_line) 2 - nth 0 (pts unit_line) 1 /\
  nth 0 (pts unit_line) 0 <= 2 <= nth 0 (pts unit_line) 2.
Proof. by split; [exact: unit_line_mesh | rewrite /=; lra]. Qed.
(** The search by sorting distances is one of the trees. *)
Example C59_example_tree : proper fan /\ tree5 fan (search5 fan) /\ proper (behead fan) /\ tree5 (behead fan) (search5 (behead fan)) /\
  in_triangle (nth t0 (behead fan) 0) (1005 / 10, 1 / 4).
Proof.
split; first exact: fan_proper.
split; first exact: search_tree.
split; first by move=> e le; apply: (@fan_proper e.+1).
split; first exact: search_tree.
by exists (1 / 2), (1 / 4), (1 / 4); rewrite /V /=; lra.
Qed.
