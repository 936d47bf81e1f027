(** * Finding elements: lemmas. *)
From Coq Require Import Reals Lra Lia.
From mathcomp Require Import all_ssreflect zify.
From Verif Require Import Base Finder.
Set Implicit Arguments.
Unset Strict Implicit.
Unset Printing Implicit Defensive.
Local Open Scope R_scope.

Lemma RlebP x y : reflect (x <= y) (Rleb x y).
Proof. by rewrite /Rleb; case: (Rle_dec x y) => h; constructor. Qed.
Lemma ReqbP x y : reflect (x = y) (Reqb x y).
Proof. by rewrite /Reqb; case: (Req_EM_T x y) => h; constructor. Qed.

(** ** One dimension *)
(** The array after the call. *)
Lemma shifted_id eps m X : 0 < eps -> (forall x, List.In x X -> x <> max_point m) <-> shifted eps m X = X.
Proof.
move=> e0; split; elim: X => //= x X IH h.
  rewrite IH; last by move=> y hy; apply: h; right.
  by case: ReqbP => // e; case: (h x) => //; left.
case: h; case: ReqbP => [e|ne] h1 h2; first by exfalso; lra.
by move=> y [<- //|hy]; apply: IH.
Qed.
Lemma shifted_idem eps m X : 0 < eps -> shifted eps m (shifted eps m X) = shifted eps m X.
Proof.
move=> e0; apply/(shifted_id m _ e0); elim: X => //= x X IH y [<-|]; last exact: IH.
by case: ReqbP => [->|//]; lra.
Qed.
Lemma size_shifted eps m X : size (shifted eps m X) = size X.
Proof. exact: size_map. Qed.

(** Sorted meshes: strictly increasing points, elements between consecutive ones in any order. *)
Record line_mesh (m : mesh1) (n : nat) : Prop := LineMesh {
  lm_size : size (pts m) = n.+1;
  lm_incr : forall i j, (i < j)%N -> (j <= n)%N -> nth 0 (pts m) i < nth 0 (pts m) j;
  lm_right : right_of m = map S (left_of m);
  lm_left : forall i, (i < n)%N <-> i \in left_of m }.
(** Element [e] contains [x], whatever the order of its ends. *)
Definition contains (m : mesh1) (e : nat) (x : R) : Prop :=
  let a := nth 0 (pts m) (nth 0%N (left_of m) e) in let b := nth 0 (pts m) (nth 0%N (right_of m) e) in
  (a <= x <= b) \/ (b <= x <= a).

Lemma foldr_max (s : seq R) a : (forall x, List.In x s -> x <= foldr Rmax a s) /\ a <= foldr Rmax a s /\
  (foldr Rmax a s = a \/ List.In (foldr Rmax a s) s).
Proof.
elim: s => [|y s [IH1 [IH2 IH3]]] /=; first by split=> //; split; [lra | left].
split; first by move=> x [->|/IH1 h]; [exact: Rmax_l | apply: Rle_trans h _; exact: Rmax_r].
split; first by apply: Rle_trans IH2 _; exact: Rmax_r.
case: (Rle_dec y (foldr Rmax a s)) => h; last by right; left; rewrite Rmax_left //; lra.
by rewrite Rmax_right //; case: IH3 => [->|]; [left | right; right].
Qed.
Lemma In_nth (s : seq R) i : (i < size s)%N -> List.In (nth 0 s i) s.
Proof. by elim: s i => // x s IH [|i] /= li; [left | right; apply: IH]. Qed.
Lemma nth_In (s : seq R) x : List.In x s -> exists2 i, (i < size s)%N & nth 0 s i = x.
Proof. by elim: s => //= y s IH [->|/IH[i li <-]]; [exists 0%N | exists i.+1]. Qed.
Lemma max_pointE m n : line_mesh m n -> max_point m = nth 0 (pts m) n.
Proof.
move=> M; have sz := lm_size M; have [h1 [h2 h3]] := foldr_max (pts m) (head 0 (pts m)).
have hn : nth 0 (pts m) n <= max_point m by apply: h1; apply: In_nth; rewrite sz.
have le i : (i <= n)%N -> nth 0 (pts m) i <= nth 0 (pts m) n.
  move=> li; case: (i =P n) => [->|ne]; first lra.
  by have := lm_incr M (_ : (i < n)%N) (leqnn n); rewrite ltn_neqAle li andbT; move/eqP: ne => -> /(_ isT); lra.
apply: Rle_antisym => //; rewrite /max_point; case: h3 => [->|/nth_In[i li <-]]; last by apply: le; rewrite sz ltnS in li.
by rewrite -nth0; apply: le.
Qed.
Lemma sorted_incr (s : seq R) : (forall i, (i.+1 < size s)%N -> nth 0 s i < nth 0 s i.+1) -> sorted Rleb s.
Proof.
case: s => // x s; elim: s x => //= y s IH x h; apply/andP; split; first by apply/RlebP; have := h 0%N isT; rewrite /=; lra.
by apply: IH => i li; apply: (h i.+1).
Qed.
Lemma binsE m n : line_mesh m n -> bins m = pts m.
Proof.
move=> M; apply: sorted_sort; first by move=> y x z /RlebP h1 /RlebP h2; apply/RlebP; lra.
by apply: sorted_incr => i; rewrite (lm_size M) => li; apply: (lm_incr M).
Qed.
Lemma count_sorted (a : pred R) (s : seq R) : count a (sort Rleb s) = count a s.
Proof.
rewrite -[s](mkseq_nth 0) sort_map !count_map; apply/permP.
by rewrite perm_sort.
Qed.
(** Where an increasing list is cut by a value. *)
Lemma digitize_at (s : seq R) x i : (i < size s)%N -> (forall j k, (j < k)%N -> (k < size s)%N -> nth 0 s j < nth 0 s k) ->
  nth 0 s i <= x -> ((i.+1 < size s)%N -> x < nth 0 s i.+1) -> digitize x s = i.+1.
Proof.
elim: s i => // y s IH i /= li h lo hi; have yx : Rleb y x.
  by apply/RlebP; case: i li lo hi => [|i] //= li lo _; have := h 0%N i.+1 isT li; rewrite /=; lra.
rewrite /digitize /= yx; case: i li lo hi => [|i] li lo hi; last first.
  by rewrite -/(digitize x s) (IH i) // => j k jk lk; apply: (h j.+1 k.+1).
suff -> : count (Rleb^~ x) s = 0%N by [].
apply/eqP; rewrite -leqn0 leqNgt -has_count; apply/negP => /(has_nthP 0)[k lk /RlebP hk].
case: k lk hk => [|k] lk hk; first by have := hi lk; rewrite /=; lra.
have s0 : (1 < (size s).+1)%N by lia.
by have := h 1%N k.+2 isT lk; have := hi s0; rewrite /=; lra.
Qed.
Lemma digitize_below (s : seq R) x : (forall j, (j < size s)%N -> x < nth 0 s j) -> digitize x s = 0%N.
Proof.
move=> h; apply/eqP; rewrite -leqn0 leqNgt -has_count; apply/negP => /(has_nthP 0)[k lk /RlebP hk].
by have := h k lk; lra.
Qed.
Lemma digitize_above (s : seq R) x : (forall j, (j < size s)%N -> nth 0 s j <= x) -> digitize x s = size s.
Proof. by move=> h; apply/eqP; rewrite -all_count; apply/(all_nthP 0) => k lk; apply/RlebP; apply: h. Qed.
(** A value between the ends is between two consecutive points. *)
Lemma between (f : nat -> R) x n : f 0%N <= x -> x < f n -> exists2 i, (i < n)%N & f i <= x /\ x < f i.+1.
Proof.
elim: n => [|n IH] h0 hn; first by exfalso; lra.
case: (Rlt_dec x (f n)) => h; first by have [i li hi] := IH h0 h; exists i => //; exact: ltnW.
by exists n => //; split; lra.
Qed.
Definition cell_of (eps : R) (m : mesh1) (x : R) : nat :=
  lookup (left_of m) (digitize (if Reqb x (max_point m) then x - eps else x) (bins m)).
Lemma cell_right eps m n x : line_mesh m n -> (0 < n)%N -> 0 < eps -> eps <= nth 0 (pts m) n - nth 0 (pts m) n.-1 ->
  nth 0 (pts m) 0 <= x <= nth 0 (pts m) n -> (cell_of eps m x < size (left_of m))%N /\ contains m (cell_of eps m x) x.
Proof.
move=> M n0 e0 ew [x0 xn]; rewrite /cell_of (max_pointE M) (binsE M).
have sz := lm_size M.
have L i y : (i < n)%N -> nth 0 (pts m) i <= y -> y < nth 0 (pts m) i.+1 ->
  nth 0 (pts m) i <= x <= nth 0 (pts m) i.+1 ->
  (lookup (left_of m) (digitize y (pts m)) < size (left_of m))%N /\ contains m (lookup (left_of m) (digitize y (pts m))) x.
  move=> li lo hi lx; have /(lm_left M) il := li.
  have -> : digitize y (pts m) = i.+1.
    apply: digitize_at => //; first by rewrite sz ltnS ltnW.
    by move=> j k jk; rewrite sz ltnS => kn; apply: (lm_incr M).
  rewrite /lookup il index_mem il; split=> //; left.
  by rewrite (lm_right M) (nth_map 0%N) ?index_mem // nth_index.
case: (ReqbP x (nth 0 (pts m) n)) => [xe|ne].
  have ln : (n.-1 < n)%N by rewrite prednK.
  have := lm_incr M ln (leqnn n) => d.
  by apply: (L n.-1) => //; rewrite ?prednK //; lra.
have [|i li [lo hi]] := @between (nth 0 (pts m)) x n x0; first lra.
by apply: (L i) => //; lra.
Qed.
Lemma cell_outside eps m n x : line_mesh m n -> x < nth 0 (pts m) 0 \/ nth 0 (pts m) n < x -> cell_of eps m x = 0%N.
Proof.
move=> M h; rewrite /cell_of (max_pointE M) (binsE M); have sz := lm_size M.
have le i : (i <= n)%N -> nth 0 (pts m) 0 <= nth 0 (pts m) i <= nth 0 (pts m) n.
  move=> li; split.
    case: i li => [|i] li; first lra.
    by have := lm_incr M (_ : (0 < i.+1)%N) li => /(_ isT); lra.
  case: (i =P n) => [->|ne]; first lra.
  by have := lm_incr M (_ : (i < n)%N) (leqnn n); rewrite ltn_neqAle li andbT; move/eqP: ne => -> /(_ isT); lra.
have l0 := le n (leqnn n).
case: ReqbP => [e|ne]; first by exfalso; lra.
case: h => h; first by rewrite digitize_below // sz => j; rewrite ltnS => /le; lra.
rewrite digitize_above ?sz //; last by move=> j; rewrite ltnS => /le; lra.
rewrite /lookup; case: ifP => // /(lm_left M); lia.
Qed.
Lemma find1E eps m X : pts m <> [::] -> left_of m <> [::] ->
  find_element_1D eps m X = Ok (map (cell_of eps m) X, shifted eps m X).
Proof.
rewrite /find_element_1D; case: (pts m) => // _ _ _; case El: (left_of m) => [|a l] // _.
by rewrite -El /shifted -map_comp; congr (Ok (_, _)); apply: eq_map => x.
Qed.
Lemma line_mesh_ne m n : line_mesh m n -> (0 < n)%N -> pts m <> [::] /\ left_of m <> [::].
Proof.
move=> M n0; split=> e; first by have := lm_size M; rewrite e.
by have /(lm_left M) := n0; rewrite e.
Qed.
(** Asking twice. *)
Lemma find1_twice eps m X e X' : 0 < eps -> find_element_1D eps m X = Ok (e, X') -> find_element_1D eps m X' = Ok (e, X').
Proof.
rewrite /find_element_1D; move=> e0; case: (pts m) => // p0 ps; case: (left_of m) => // l0 ls [<- <-].
by rewrite shifted_idem.
Qed.

(** ** Triangles *)
(** In the closed triangle: a combination of the corners. *)
Definition in_triangle (t : triangle) (x : point) : Prop :=
  let '(a, b, c) := t in exists u v w : R, (0 <= u /\ 0 <= v /\ 0 <= w) /\ u + v + w = 1 /\
  x.1 = u * a.1 + v * b.1 + w * c.1 /\ x.2 = u * a.2 + v * b.2 + w * c.2.
(** Up to a tolerance in the weights. *)
Definition near_triangle (tol : R) (t : triangle) (x : point) : Prop :=
  let '(a, b, c) := t in exists u v w : R, (- tol <= u /\ - tol <= v /\ - tol <= w) /\ u + v + w = 1 /\
  x.1 = u * a.1 + v * b.1 + w * c.1 /\ x.2 = u * a.2 + v * b.2 + w * c.2.
Lemma near_zero t x : near_triangle 0 t x <-> in_triangle t x.
Proof. by case: t => [[a b] c]; split=> -[u [v [w [h ?]]]]; exists u, v, w; split=> //; lra. Qed.
Lemma near_widen tol tol' t x : tol <= tol' -> near_triangle tol t x -> near_triangle tol' t x.
Proof. by case: t => [[a b] c] le [u [v [w [h ?]]]]; exists u, v, w; split=> //; lra. Qed.

Lemma inv_mapP t x : jacobian t <> 0 -> exists2 X, inv_map t x = Ok X &
  let '(a, b, c) := t in
  x.1 = (1 - X.1 - X.2) * a.1 + X.1 * b.1 + X.2 * c.1 /\ x.2 = (1 - X.1 - X.2) * a.2 + X.1 * b.2 + X.2 * c.2.
Proof.
case: t => [[[ax ay] [bx by_]] [cx cy]]; case: x => x y; rewrite /inv_map => J0.
case: (Req_EM_T _ 0) => [//|? /=]; eexists; first by [].
by rewrite /jacobian /= in J0 *; split; field.
Qed.
Lemma weights_unique t x u v w u' v' w' : jacobian t <> 0 ->
  let '(a, b, c) := t in
  u + v + w = 1 -> x.1 = u * a.1 + v * b.1 + w * c.1 -> x.2 = u * a.2 + v * b.2 + w * c.2 ->
  u' + v' + w' = 1 -> x.1 = u' * a.1 + v' * b.1 + w' * c.1 -> x.2 = u' * a.2 + v' * b.2 + w' * c.2 ->
  [/\ u = u', v = v' & w = w'].
Proof.
case: t => [[[ax ay] [bx by_]] [cx cy]]; case: x => x y; rewrite /jacobian /= => J0 s1 e1 e2 s2 e3 e4.
have Eu : u = 1 - v - w by lra.
have Eu' : u' = 1 - v' - w' by lra.
rewrite Eu in e1 e2; rewrite Eu' in e3 e4.
have h1 : (v - v') * (bx - ax) + (w - w') * (cx - ax) = 0 by lra.
have h2 : (v - v') * (by_ - ay) + (w - w') * (cy - ay) = 0 by lra.
have hv : (v - v') * ((bx - ax) * (cy - ay) - (cx - ax) * (by_ - ay)) = 0.
  have -> : (v - v') * ((bx - ax) * (cy - ay) - (cx - ax) * (by_ - ay)) =
    ((v - v') * (bx - ax) + (w - w') * (cx - ax)) * (cy - ay) - ((v - v') * (by_ - ay) + (w - w') * (cy - ay)) * (cx - ax) by ring.
  by rewrite h1 h2; ring.
have hw : (w - w') * ((bx - ax) * (cy - ay) - (cx - ax) * (by_ - ay)) = 0.
  have -> : (w - w') * ((bx - ax) * (cy - ay) - (cx - ax) * (by_ - ay)) =
    ((v - v') * (by_ - ay) + (w - w') * (cy - ay)) * (bx - ax) - ((v - v') * (bx - ax) + (w - w') * (cx - ax)) * (by_ - ay) by ring.
  by rewrite h1 h2; ring.
case/Rmult_integral: hv => // hv; case/Rmult_integral: hw => // hw.
by split; lra.
Qed.
Lemma inside_near mach t x X : jacobian t <> 0 -> inv_map t x = Ok X -> inside_2D mach X <-> near_triangle mach t x.
Proof.
move=> J0 E; have [X' E' h] := inv_mapP x J0; move: E'; rewrite E => -[?]; subst X'.
case: t J0 E h => [[a b] c] J0 _ [h1 h2]; rewrite /inside_2D; split.
  case/and3P=> /RlebP i1 /RlebP i2 /RlebP i3; exists (1 - X.1 - X.2), X.1, X.2.
  by split; [lra | split; [ring | split]].
case=> u [v [w [h [s [e1 e2]]]]].
have s1 : 1 - X.1 - X.2 + X.1 + X.2 = 1 by ring.
have [U V W] := @weights_unique (a, b, c) x _ _ _ _ _ _ J0 s e1 e2 s1 h1 h2.
by apply/and3P; split; apply/RlebP; lra.
Qed.
Definition t0 : triangle := ((0, 0), (0, 0), (0, 0)).
Definition proper (ts : seq triangle) : Prop := forall e, (e < size ts)%N -> jacobian (nth t0 ts e) <> 0.
Lemma rd_nthT (ts : seq triangle) e : (e < size ts)%N -> rd ts e = Ok (nth t0 ts e).
Proof. by elim: ts e => // t ts IH [|e] //= le; apply: IH. Qed.
Lemma rd_out (T : Type) (ts : seq T) e : (size ts <= e)%N -> rd ts e = Err OutOfBounds.
Proof. by elim: ts e => // t ts IH [|e] //= le; apply: IH. Qed.
Lemma rd_nthN (s : seq nat) e : (e < size s)%N -> rd s e = Ok (nth 0%N s e).
Proof. by elim: s e => // t ts IH [|e] //= le; apply: IH. Qed.
Lemma locals ts cand x : proper ts -> all (gtn (size ts)) cand ->
  exists2 loc, mapM (fun e => let! t := rd ts e in inv_map t x) cand = Ok loc &
  size loc = size cand /\ forall i, (i < size cand)%N -> inv_map (nth t0 ts (nth 0%N cand i)) x = Ok (nth (0, 0) loc i).
Proof.
move=> P; elim: cand => [|e cand IH] /=; first by exists [::].
case/andP=> le /IH[loc E [sz h]]; have [X EX _] := inv_mapP x (P e le).
rewrite rd_nthT //= EX /= E /=; exists (X :: loc) => //; split; first by rewrite /= sz.
by case=> [|i] //= li; apply: h.
Qed.
Lemma find_one_in mach ts cand x : proper ts -> all (gtn (size ts)) cand -> cand <> [::] ->
  exists2 e, find_one mach ts cand x = Ok e & e \in cand /\
  ((exists2 c, c \in cand & near_triangle mach (nth t0 ts c) x) -> near_triangle mach (nth t0 ts e) x).
Proof.
move=> P A c0; have [loc E [sz h]] := locals x P A; rewrite /find_one E /=.
have cs : (0 < size cand)%N by case: (cand) c0.
have near i : (i < size cand)%N -> inside_2D mach (nth (0, 0) loc i) <-> near_triangle mach (nth t0 ts (nth 0%N cand i)) x.
  by move=> li; apply: inside_near (h i li); apply: P; apply: (allP A); rewrite mem_nth.
set inside := map _ _; have si : size inside = size cand by rewrite size_map.
case: ifP => I.
  have li : (index true inside < size cand)%N by rewrite -si index_mem.
  rewrite rd_nthN //; eexists; first by []; split=> [|_]; first exact: mem_nth.
  apply/near => //; have := nth_index false I; rewrite (nth_map (0, 0)) ?sz // => ->.
rewrite rd_nthN //; eexists; first by []; split=> [|[c hc hn]]; first exact: mem_nth.
have lc : (index c cand < size cand)%N by rewrite index_mem.
case/negP: (negbT I); apply/(nthP false); exists (index c cand); first by rewrite si.
rewrite (nth_map (0, 0)) ?sz //; apply/near => //; by rewrite nth_index.
Qed.
Lemma find_one_short mach ts cand x : proper ts -> ~~ all (gtn (size ts)) cand -> find_one mach ts cand x = Err OutOfBounds.
Proof.
move=> P; rewrite /find_one; suff : ~~ all (gtn (size ts)) cand ->
  mapM (fun e => let! t := rd ts e in inv_map t x) cand = Err OutOfBounds by move=> h /h ->.
elim: cand => // e cand IH /=; case le: (e < size ts)%N => /=; last by move=> _; rewrite rd_out //; move: le; lia.
by move=> /IH E; have [X EX _] := inv_mapP x (P e le); rewrite rd_nthT //= EX /= E.
Qed.

(** *** The search tree *)
Definition centroid (t : triangle) : point :=
  let '(a, b, c) := t in ((a.1 + b.1 + c.1) / 3, (a.2 + b.2 + c.2) / 3).
Definition dist2 (p q : point) : R := (p.1 - q.1) ^ 2 + (p.2 - q.2) ^ 2.
(** The [k] nearest centroids, in some order among equal distances; when there are not enough,
    the number of elements stands for the missing ones. *)
Record nearest (k : nat) (ts : seq triangle) (x : point) (q : seq nat) : Prop := Nearest {
  nr_size : size q = k;
  nr_missing : forall i, (i < k)%N -> (nth 0%N q i <= size ts)%N /\ ((size ts <= i)%N -> nth 0%N q i = size ts);
  nr_found : forall i, (i < k)%N -> (i < size ts)%N -> (nth 0%N q i < size ts)%N;
  nr_uniq : uniq (take (size ts) q);
  nr_closer : forall i j, i \in q -> (i < size ts)%N -> (j < size ts)%N -> j \notin q ->
    dist2 (centroid (nth t0 ts i)) x <= dist2 (centroid (nth t0 ts j)) x }.
Definition tree5 (ts : seq triangle) (query : point -> seq nat) : Prop := forall x, nearest 5 ts x (query x).

Lemma nearest_all ts x q : nearest 5 ts x q -> (5 <= size ts)%N -> all (gtn (size ts)) q /\ uniq q.
Proof.
move=> Q l5; split.
  by apply/(all_nthP 0%N) => i; rewrite (nr_size Q) => li; apply: (nr_found Q) => //; exact: leq_trans li l5.
by have := nr_uniq Q; rewrite take_oversize // (nr_size Q).
Qed.
Lemma mem5 ts x q e : nearest 5 ts x q -> size ts = 5%N -> (e < 5)%N -> e \in q.
Proof.
move=> Q s5; have [A U] := nearest_all Q (eq_leq (esym s5)).
have sub : {subset q <= iota 0 5} by move=> i iq; rewrite mem_iota /=; have := allP A _ iq; rewrite /= s5.
have sz : (size (iota 0 5) <= size q)%N by rewrite (nr_size Q).
have [_ E] := uniq_min_size U sub sz.
by move=> le; rewrite E mem_iota.
Qed.
Lemma find_five mach ts query x : proper ts -> tree5 ts query -> size ts = 5%N -> 0 <= mach ->
  (exists2 c, (c < 5)%N & in_triangle (nth t0 ts c) x) ->
  exists2 e, find_one mach ts (query x) x = Ok e & near_triangle mach (nth t0 ts e) x.
Proof.
move=> P Q s5 m0 [c lc hc]; have [A U] := nearest_all (Q x) (eq_leq (esym s5)).
have q0 : query x <> [::] by move=> e; have := nr_size (Q x); rewrite e.
have [e E [_ h]] := find_one_in mach x P A q0; exists e => //; apply: h.
exists c; first exact: mem5 (Q x) s5 lc.
by apply: near_widen m0 _; apply/near_zero.
Qed.
Lemma find_few mach ts query x : proper ts -> tree5 ts query -> (size ts < 5)%N -> find_one mach ts (query x) x = Err OutOfBounds.
Proof.
move=> P Q l5; apply: find_one_short => //; apply/negP => A.
have := allP A (nth 0%N (query x) (size ts)); rewrite mem_nth ?(nr_size (Q x)) // => /(_ isT) /=.
by have [_ ->] := nr_missing (Q x) l5; rewrite ?leqnn // ltnn.
Qed.

(** *** A mesh with a long element *)
Definition V : point := (100, 0).
Definition fan : seq triangle := [:: ((0, 0), V, (0, 1)); (V, (101, 0), (101, 1)); (V, (101, 1), (100, 1));
  (V, (100, 1), (99, 1)); (V, (101, -1), (101, 0)); (V, (100, -1), (101, -1))].
Definition missed : point := (99, 1 / 200).
Lemma fan_proper : proper fan.
Proof. by move=> [|[|[|[|[|[|]]]]]] //= _; rewrite /jacobian /=; lra. Qed.
Lemma fan_contains : in_triangle (nth t0 fan 0) missed.
Proof. by exists (1 / 200), (99 / 100), (1 / 200) => /=; lra. Qed.
Lemma fan_others mach e : 0 <= mach < 1 / 100 -> (0 < e < 6)%N -> ~ near_triangle mach (nth t0 fan e) missed.
Proof.
move=> hm le; case: e le => [|[|[|[|[|[|]]]]]] //= _ [u [v [w [h [s [e1 e2]]]]]]; rewrite /missed /V /= in e1 e2; lra.
Qed.
Lemma fan_far q : nearest 5 fan missed q -> 0%N \notin q.
Proof.
move=> Q; apply/negP => q0; have [A U] := nearest_all Q isT.
have [j lj nj] : exists2 j, (0 < j < 6)%N & j \notin q.
  case: (boolP (all (mem q) (iota 1 5))) => [al|/allPn[j]]; last by rewrite mem_iota; exists j.
  have sub : {subset iota 0 6 <= q} by move=> j; rewrite inE => /orP[/eqP->//|jl]; exact: (allP al j jl).
  by have := uniq_leq_size (iota_uniq 0 6) sub; rewrite size_iota (nr_size Q).
have lj' : (j < size fan)%N by case/andP: lj.
have := nr_closer Q q0 isT lj' nj.
by case: j lj nj lj' => [|[|[|[|[|[|]]]]]] //= _ _ _; rewrite /dist2 /centroid /missed /V /=; lra.
Qed.
Lemma fan_wrong mach query : 0 <= mach < 1 / 100 -> tree5 fan query ->
  exists2 e, find_one mach fan (query missed) missed = Ok e & ~ near_triangle mach (nth t0 fan e) missed.
Proof.
move=> hm Q; have [A U] := nearest_all (Q missed) isT.
have q0 : query missed <> [::] by move=> e; have := nr_size (Q missed); rewrite e.
have [e E [ein _]] := find_one_in mach missed fan_proper A q0; exists e => //.
apply: fan_others => //; apply/andP; split; last exact: (allP A).
by rewrite lt0n; apply/eqP => e0; case/negP: (fan_far (Q missed)); rewrite -e0.
Qed.

(** *** Such searches exist *)
Definition by_distance (ts : seq triangle) (x : point) : seq nat :=
  sort (fun i j => Rleb (dist2 (centroid (nth t0 ts i)) x) (dist2 (centroid (nth t0 ts j)) x)) (iota 0 (size ts)).
Definition search5 (ts : seq triangle) (x : point) : seq nat := take 5 (by_distance ts x ++ nseq 5 (size ts)).
Lemma size_by_distance ts x : size (by_distance ts x) = size ts.
Proof. by rewrite size_sort size_iota. Qed.
Lemma mem_by_distance ts x e : (e \in by_distance ts x) = (e < size ts)%N.
Proof. by rewrite mem_sort mem_iota add0n. Qed.
Lemma nth_search ts x i : (i < 5)%N -> nth 0%N (search5 ts x) i = if (i < size ts)%N then nth 0%N (by_distance ts x) i else size ts.
Proof.
move=> li; rewrite /search5 nth_take // nth_cat size_by_distance; case: ifP => // h.
by rewrite nth_nseq; case: ifP => //; move: li; lia.
Qed.
Lemma size_search ts x : size (search5 ts x) = 5%N.
Proof. by rewrite /search5 size_takel // size_cat size_nseq leq_addl. Qed.
Lemma search_tree ts : tree5 ts (search5 ts).
Proof.
move=> x; split; first exact: size_search.
- move=> i li; rewrite nth_search //; case: ifP => h; last by rewrite leqnn.
  by split=> [|]; [rewrite ltnW // -(mem_by_distance ts x) mem_nth // size_by_distance | move: h; lia].
- by move=> i li h; rewrite nth_search // h -(mem_by_distance ts x) mem_nth // size_by_distance.
- have U : uniq (by_distance ts x) by rewrite sort_uniq iota_uniq.
  by rewrite /search5 takeC take_size_cat ?size_by_distance //; exact: take_uniq.
move=> i j iq li lj jq.
set leT := fun i j => Rleb (dist2 (centroid (nth t0 ts i)) x) (dist2 (centroid (nth t0 ts j)) x).
have tr : transitive leT by move=> a b c /RlebP h1 /RlebP h2; apply/RlebP; lra.
have tot : total leT by move=> a b; apply/orP; case: (Rle_dec (dist2 (centroid (nth t0 ts a)) x) (dist2 (centroid (nth t0 ts b)) x)) => h;
  [left | right]; apply/RlebP; lra.
have so : sorted leT (by_distance ts x) by apply: sort_sorted.
have [a la Ea] : exists2 a, (a < minn 5 (size ts))%N & nth 0%N (by_distance ts x) a = i.
  have /(nthP 0%N)[a] := iq; rewrite size_search => la; rewrite nth_search //.
  by case: ifP => [h <-|_ h]; [exists a => //; rewrite leq_min la | move: li; rewrite h ltnn].
have [b lb Eb] : exists2 b, (b < size ts)%N & nth 0%N (by_distance ts x) b = j.
  have : j \in by_distance ts x by rewrite mem_by_distance.
  by move/(nthP 0%N)=> [b]; rewrite size_by_distance; exists b.
have b5 : (5 <= b)%N.
  rewrite leqNgt; apply/negP => h; case/negP: jq; rewrite -Eb; apply/(nthP 0%N); exists b; first by rewrite size_search.
  by rewrite nth_search // lb.
have : leT i j.
  rewrite -Ea -Eb; apply: (sorted_ltn_nth tr) => //; rewrite ?inE ?size_by_distance //; move: la; lia.
by move/RlebP.
Qed.
