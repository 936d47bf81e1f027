(** * Mesh helpers: lemmas. *)
From Coq Require Import Reals Lra Lia.
From mathcomp Require Import all_ssreflect zify.
From Verif Require Import Base Mesh.
Set Implicit Arguments.
Unset Strict Implicit.
Unset Printing Implicit Defensive.
Local Open Scope R_scope.

(** ** Lines *)
Lemma power_sumE r n : power_sum r n * (r - 1) = r ^ n - 1.
Proof. by elim: n => [|n IH] /=; [ring | rewrite Rmult_plus_distr_r IH; ring]. Qed.
Definition point_of (n : nat) (r x_start x_end : R) (i : nat) : R :=
  x_start + (r - 1) / (r ^ n - 1) * power_sum r i * (x_end - x_start).
Lemma non_uniformE xs xe n r : r ^ n <> 1 -> exists2 l, non_uniform_line xs xe n r = Ok l &
  size l = n.+1 /\ forall i, (i <= n)%N -> nth 0 l i = point_of n r xs xe i.
Proof.
move=> h; rewrite /non_uniform_line; case: (Req_EM_T (r ^ n - 1) 0) => [e|? /=]; first by case: h; lra.
eexists; first by []; split; first by rewrite /= size_map size_mkseq.
case=> [|i] li /=; first by rewrite /point_of /=; ring.
by rewrite (nth_map 0) ?size_mkseq // nth_mkseq // /point_of.
Qed.
Lemma non_uniform_ends xs xe n r : r ^ n <> 1 -> point_of n r xs xe 0 = xs /\ point_of n r xs xe n = xe.
Proof.
move=> h; rewrite /point_of /=; split; first ring.
have h' : r ^ n - 1 <> 0 by lra.
have -> : (r - 1) / (r ^ n - 1) * power_sum r n = 1.
  by rewrite -(power_sumE r n) in h' *; field; split; [move=> e; apply: h'; rewrite e; ring | move=> e; apply: h'; rewrite e; ring].
ring.
Qed.
Lemma non_uniform_ratio xs xe n r i :
  point_of n r xs xe i.+2 - point_of n r xs xe i.+1 = r * (point_of n r xs xe i.+1 - point_of n r xs xe i).
Proof. by rewrite /point_of /=; ring. Qed.
Lemma pow_between r n : 0 < r -> r <> 1 -> (0 < n)%N -> 0 < (r - 1) / (r ^ n - 1).
Proof.
move=> r0 r1; case: n => // n _.
have := power_sumE r n.+1.
have P k : 0 < power_sum r k.+1.
  by elim: k => [|k IH] /=; [lra | have := pow_lt r k.+1 r0; move: IH => /=; lra].
have := P n; set s := power_sum r n.+1 => s0 E; rewrite -E.
have -> : (r - 1) / (s * (r - 1)) = / s by field; split; lra.
exact: Rinv_0_lt_compat.
Qed.
Lemma non_uniform_increasing xs xe n r i : 0 < r -> r <> 1 -> xs < xe -> (i < n)%N ->
  point_of n r xs xe i < point_of n r xs xe i.+1.
Proof.
move=> r0 r1 xx li; have n0 : (0 < n)%N by lia.
have h := pow_between r0 r1 n0; have := pow_lt r i r0 => p.
rewrite /point_of /=.
have := Rmult_lt_0_compat _ _ (Rmult_lt_0_compat _ _ h p) (_ : 0 < xe - xs); nra.
Qed.
Lemma non_uniform_equal xs xe n : non_uniform_line xs xe n 1 = Err ZeroDivision.
Proof. by rewrite /non_uniform_line pow1; case: (Req_EM_T (1 - 1) 0) => [e|ne] //; case: ne; ring. Qed.
Lemma uniformE xs xe n : (0 < n)%N -> let l := uniform_line xs xe n in
  [/\ size l = n.+1, nth 0 l 0 = xs, nth 0 l n = xe &
  forall i, (i < n)%N -> nth 0 l i.+1 - nth 0 l i = (xe - xs) / INR n].
Proof.
move=> n0 l; have N0 : INR n <> 0 by apply: not_0_INR; lia.
rewrite /l /uniform_line size_mkseq; split=> //.
- by rewrite nth_mkseq //=; ring.
- by rewrite nth_mkseq //; field.
move=> i li; rewrite !nth_mkseq ?S_INR; try lia.
by field.
Qed.

(** ** Intersections *)
Definition fin (p : R * R) : vertex := (Fin p.1, Fin p.2).
(** Twice the signed area of a triangle; directions. *)
Definition area (a b p : R * R) : R := (b.1 - a.1) * (p.2 - a.2) - (b.2 - a.2) * (p.1 - a.1).
Definition on_line (a b p : R * R) : Prop := area a b p = 0.
Definition det (a b c d : R * R) : R := (b.1 - a.1) * (d.2 - c.2) - (b.2 - a.2) * (d.1 - c.1).

Lemma intersect_fin a1 a2 b1 b2 : det a1 a2 b1 b2 <> 0 ->
  exists2 p, get_intersect (fin a1) (fin a2) (fin b1) (fin b2) = fin p & on_line a1 a2 p /\ on_line b1 b2 p.
Proof.
case: a1 => ax ay; case: a2 => bx by_; case: b1 => cx cy; case: b2 => dx dy; rewrite /det /= => D.
rewrite /get_intersect /cross /homogeneous /fin /esub /=.
set z := (X in Req_EM_T X 0).
have Ez : z = (bx - ax) * (dy - cy) - (by_ - ay) * (dx - cx) by rewrite /z; ring.
have z0 : z <> 0 by rewrite Ez.
case: (Req_EM_T z 0) => [e|? /=]; first by case: (z0 e).
set x := (X in (Fin (X / z), _)); set y := (X in (_, Fin (X / z))).
exists (x / z, y / z) => //; rewrite /on_line /area /=.
have F (u v c : R) : u * x + v * y = c * z -> u * (x / z) + v * (y / z) = c.
  by move=> h; apply: (Rmult_eq_reg_r z) => //; rewrite -h; field.
split.
  have := F (- (by_ - ay)) (bx - ax) ((bx - ax) * ay - (by_ - ay) * ax); move=> H.
  have : - (by_ - ay) * (x / z) + (bx - ax) * (y / z) = (bx - ax) * ay - (by_ - ay) * ax; last lra.
  by apply: H; rewrite /x /y /z; ring.
have := F (- (dy - cy)) (dx - cx) ((dx - cx) * cy - (dy - cy) * cx); move=> H.
have : - (dy - cy) * (x / z) + (dx - cx) * (y / z) = (dx - cx) * cy - (dy - cy) * cx; last lra.
by apply: H; rewrite /x /y /z; ring.
Qed.
Lemma intersect_parallel a1 a2 b1 b2 : det a1 a2 b1 b2 = 0 ->
  get_intersect (fin a1) (fin a2) (fin b1) (fin b2) = (PInf, PInf).
Proof.
case: a1 => ax ay; case: a2 => bx by_; case: b1 => cx cy; case: b2 => dx dy; rewrite /det /= => D.
rewrite /get_intersect /cross /homogeneous /fin /esub /=.
set z := (X in Req_EM_T X 0).
have Ez : z = 0 by rewrite -D /z; ring.
by case: (Req_EM_T z 0).
Qed.
Lemma intersect_unique a1 a2 b1 b2 p q : det a1 a2 b1 b2 <> 0 ->
  on_line a1 a2 p -> on_line b1 b2 p -> on_line a1 a2 q -> on_line b1 b2 q -> p = q.
Proof.
case: a1 => ax ay; case: a2 => bx by_; case: b1 => cx cy; case: b2 => dx dy; case: p => px py; case: q => qx qy.
rewrite /det /on_line /area /= => D h1 h2 h3 h4.
have E1 : (bx - ax) * (py - qy) = (by_ - ay) * (px - qx) by lra.
have E2 : (dx - cx) * (py - qy) = (dy - cy) * (px - qx) by lra.
congr pair; apply: Rminus_diag_uniq.
  apply: (Rmult_eq_reg_l ((bx - ax) * (dy - cy) - (by_ - ay) * (dx - cx))) => //.
  have -> : ((bx - ax) * (dy - cy) - (by_ - ay) * (dx - cx)) * (px - qx) =
    (bx - ax) * ((dy - cy) * (px - qx)) - (dx - cx) * ((by_ - ay) * (px - qx)) by ring.
  by rewrite -E1 -E2; ring.
apply: (Rmult_eq_reg_l ((bx - ax) * (dy - cy) - (by_ - ay) * (dx - cx))) => //.
have -> : ((bx - ax) * (dy - cy) - (by_ - ay) * (dx - cx)) * (py - qy) =
  (dy - cy) * ((bx - ax) * (py - qy)) - (by_ - ay) * ((dx - cx) * (py - qy)) by ring.
by rewrite E1 E2; ring.
Qed.

(** ** One round *)
Lemma argmin_from_lt best ib i s n : (ib < n)%N -> (i + size s <= n)%N -> (argmin_from best ib i s < n)%N.
Proof.
elim: s best ib i => //= x s IH best ib i l1 l2; case: (better x best); apply: IH => //; lia.
Qed.
Lemma argmin_lt s i : argmin s = Ok i -> (i < size s)%N.
Proof. by case: s => //= x s [<-]; apply: argmin_from_lt. Qed.
Lemma argmin_err s e : argmin s = Err e -> s = [::] /\ e = ValueError.
Proof. by case: s => //= -[<-]. Qed.
Lemma size_delete i vs : (i < size vs)%N -> size (delete i vs) = (size vs).-1.
Proof. by move=> li; rewrite /delete size_cat size_takel ?size_drop; lia. Qed.
Lemma size_lengths vs : size (lengths vs) = (size vs).-1.
Proof. by rewrite size_mkseq. Qed.

Lemma round_true limit vs ws : remove_one_point limit vs = Ok (ws, true) ->
  exists2 i, argmin (lengths vs) = Ok i & [/\ (i.+1 < size vs)%N,
  elt (ediv (nth Nan (lengths vs) i) (esum (lengths vs))) (Fin limit),
  ws = delete i.+1 (set_nth v0 vs i (get_intersect (nth v0 vs ((i + (size vs).-1) %% size vs)) (nth v0 vs i) (nth v0 vs i.+1) (nth v0 vs (i.+2 %% size vs)))) &
  size ws = (size vs).-1].
Proof.
rewrite /remove_one_point => h; unbind h i Ei.
have := argmin_lt Ei; rewrite size_lengths => li; have li' : (i.+1 < size vs)%N by lia.
move: h; case: ifP => // E [<-]; exists i => //.
rewrite (modn_small li') (modn_small (ltnW li')); split=> //.
rewrite size_delete size_set_nth; move/maxn_idPr: (ltnW li') => -> //.
Qed.
Lemma round_false limit vs ws : remove_one_point limit vs = Ok (ws, false) -> ws = vs.
Proof. by rewrite /remove_one_point => h; unbind h i Ei; move: h; case: ifP => // _ [<-]. Qed.
Lemma round_err limit vs e : remove_one_point limit vs = Err e -> e = ValueError /\ (size vs <= 1)%N.
Proof.
rewrite /remove_one_point; case E: (argmin (lengths vs)) => [i|e'] /=; first by case: ifP.
case=> <-; have [/(congr1 size)] := argmin_err E; rewrite size_lengths /= => h ->.
by split=> //; lia.
Qed.

(** ** Termination *)
Lemma simplify_terminates limit vs : exists r, forall fuel, (size vs < fuel)%N -> simplify fuel limit vs = Some r.
Proof.
have [n] := ubnP (size vs); elim: n vs => // n IH vs ln.
case E: (remove_one_point limit vs) => [[ws []]|e].
- have [i _ [li _ _ sw]] := round_true E.
  have [|r Hr] := IH ws; first by rewrite sw; lia.
  by exists r => -[|f] //= lf; rewrite E Hr // sw; lia.
- by exists (Ok ws) => -[|f] //= _; rewrite E.
by exists (Err e) => -[|f] //= _; rewrite E.
Qed.
(** With a limit of at most one, two vertices are never reduced. *)
Lemma ediv_self x : ediv x (eadd (Fin 0) x) = Fin 1 \/ ediv x (eadd (Fin 0) x) = Nan.
Proof.
case: x => [r|||] /=; try by right.
case: (Req_EM_T (0 + r) 0) => [e|ne] /=.
  right; rewrite /scale_inf /rsign; case: (Rlt_dec r 0) => [h|h]; first by exfalso; lra.
  by case: (Rlt_dec 0 r) => // h'; exfalso; lra.
by left; congr Fin; field; lra.
Qed.
Lemma round_two limit vs : limit <= 1 -> size vs = 2%N -> remove_one_point limit vs = Ok (vs, false).
Proof.
move=> l1; case: vs => [|p [|q [|? ?]]] // _; rewrite /remove_one_point /lengths /=.
case: (ediv_self (sq_dist p q)) => ->; rewrite /elt //.
by case: (Rlt_dec 1 limit) => h //; exfalso; lra.
Qed.
Lemma simplify_ok limit vs fuel r : limit <= 1 -> (2 <= size vs)%N -> simplify fuel limit vs = Some r ->
  exists2 ws, r = Ok ws & (2 <= size ws <= size vs)%N.
Proof.
move=> l1; elim: fuel vs => // f IH vs lv /=.
case E: (remove_one_point limit vs) => [[ws []]|e].
- move=> h; have [i _ [li _ _ sw]] := round_true E.
  have v2 : size vs <> 2%N by move=> e; rewrite round_two in E.
  have [|us -> lu] := IH ws _ h; first by rewrite sw; lia.
  by exists us => //; move: lu; rewrite sw; lia.
- by move=> -[<-]; rewrite (round_false E); exists vs => //; rewrite lv leqnn.
- by have [_] := round_err E; lia.
Qed.

(** ** Which edge *)
Definition sqlen (p q : R * R) : R := (q.1 - p.1) ^ 2 + (q.2 - p.2) ^ 2.
Definition edge (ps : seq (R * R)) (i : nat) : R := sqlen (nth (0, 0) ps i) (nth (0, 0) ps i.+1).
(** Sum over the consecutive pairs. *)
Fixpoint path_len (p : R * R) (ps : seq (R * R)) : R := if ps is q :: ps' then sqlen p q + path_len q ps' else 0.
Definition perimeter (ps : seq (R * R)) : R := if ps is p :: ps' then path_len p ps' else 0.

Lemma sq_dist_fin p q : sq_dist (fin p) (fin q) = Fin (sqlen p q).
Proof. by rewrite /sq_dist /esub /=; congr Fin; rewrite /sqlen; ring. Qed.
Lemma sqlen_ge0 p q : 0 <= sqlen p q.
Proof. by rewrite /sqlen; have := pow2_ge_0 (q.1 - p.1); have := pow2_ge_0 (q.2 - p.2); lra. Qed.
Lemma lengths_fin ps : lengths (map fin ps) = map Fin (mkseq (edge ps) (size ps).-1).
Proof.
rewrite /lengths size_map -map_comp; apply/eq_in_map => i; rewrite mem_iota add0n => li.
by rewrite !(nth_map (0, 0)) ?sq_dist_fin //; lia.
Qed.
Lemma esum_fin s a : foldl eadd (Fin a) (map Fin s) = Fin (foldl Rplus a s).
Proof. by elim: s a => //= x s IH a; rewrite IH. Qed.
Lemma foldl_Rplus s a : foldl Rplus a s = a + foldl Rplus 0 s.
Proof. by elim: s a => [|x s IH] a /=; [ring | rewrite IH (IH (0 + x)); ring]. Qed.
Lemma perimeterE ps : foldl Rplus 0 (mkseq (edge ps) (size ps).-1) = perimeter ps.
Proof.
case: ps => // p ps /=; elim: ps p => //= q ps IH p.
rewrite foldl_Rplus -(IH q) /mkseq /= (iotaDl 1 0) -map_comp.
by rewrite Rplus_0_l; congr (_ + foldl _ _ _).
Qed.
Lemma esum_lengths ps : esum (lengths (map fin ps)) = Fin (perimeter ps).
Proof. by rewrite lengths_fin /esum esum_fin perimeterE. Qed.
Lemma perimeter_ge0 ps : 0 <= perimeter ps.
Proof.
case: ps => [|p ps] /=; first lra.
by elim: ps p => /= [|q ps IH] p; [lra | have := sqlen_ge0 p q; have := IH q; lra].
Qed.

Lemma argmin_from_fin b ib i (s : seq R) (t : nat -> R) :
  t ib = b -> (forall j, (j < size s)%N -> t (i + j)%N = nth 0 s j) -> (ib < i)%N ->
  (forall j, (j < i)%N -> b <= t j) ->
  forall j, (j < i + size s)%N -> t (argmin_from (Fin b) ib i (map Fin s)) <= t j.
Proof.
elim: s b ib i => [|x s IH] b ib i /= tb ts lib min j; first by rewrite addn0 tb; exact: min.
have tx : t i = x by have := ts 0%N; rewrite addn0 => ->.
have ts' k : (k < size s)%N -> t (i.+1 + k)%N = nth 0 s k by move=> lk; rewrite addSnnS (ts k.+1).
rewrite addnS -addSn => lj; rewrite /better /=; case: (Rlt_dec x b) => h.
  apply: IH => // k lk; case: (k =P i) => [->|ki]; first by rewrite tx; lra.
  have : b <= t k by apply: min; lia.
  lra.
apply: IH => //; first by apply: ltnW.
move=> k lk; case: (k =P i) => [->|ki]; first by rewrite tx; lra.
by apply: min; lia.
Qed.
Lemma argmin_fin (s : seq R) i : argmin (map Fin s) = Ok i ->
  (i < size s)%N /\ forall j, (j < size s)%N -> nth 0 s i <= nth 0 s j.
Proof.
move=> h; split; first by have := argmin_lt h; rewrite size_map.
case: s h => //= x s [<-] j lj.
apply: (@argmin_from_fin x 0 1 s (nth 0 (x :: s))) => //.
by case=> // _; rewrite /=; lra.
Qed.
Lemma ratio_lt a s limit : 0 <= s -> 0 <= a -> elt (ediv (Fin a) (Fin s)) (Fin limit) -> s <> 0 /\ a < limit * s.
Proof.
move=> s0 a0 /=; case: (Req_EM_T s 0) => [e|ne] /=.
  rewrite /scale_inf /rsign; case: (Rlt_dec a 0) => [h|h]; first by exfalso; lra.
  by case: (Rlt_dec 0 a).
case: (Rlt_dec (a / s) limit) => // h _; split=> //.
have -> : a = a / s * s by field.
by apply: Rmult_lt_compat_r => //; lra.
Qed.
Lemma ratio_ge a s limit : 0 <= s -> elt (ediv (Fin a) (Fin s)) (Fin limit) = false -> s = 0 \/ limit * s <= a.
Proof.
move=> s0 /=; case: (Req_EM_T s 0) => [e|ne] /=; first by left.
case: (Rlt_dec (a / s) limit) => // h _; right.
have -> : a = a / s * s by field.
by apply: Rmult_le_compat_r => //; lra.
Qed.
Lemma nth_edges ps j : (j < (size ps).-1)%N -> nth 0 (mkseq (edge ps) (size ps).-1) j = edge ps j.
Proof. by move=> lj; rewrite nth_mkseq. Qed.
Lemma round_stop limit ps ws : remove_one_point limit (map fin ps) = Ok (ws, false) ->
  ws = map fin ps /\ (perimeter ps = 0 \/ forall j, (j.+1 < size ps)%N -> limit * perimeter ps <= edge ps j).
Proof.
move=> H; split; first exact: round_false H.
move: H; rewrite /remove_one_point => h; unbind h i Ei; move: h; case: ifP => // E _.
move: Ei E; rewrite esum_lengths lengths_fin => /argmin_fin; rewrite size_mkseq => -[li mi].
rewrite (nth_map 0) ?size_mkseq // => /(ratio_ge (perimeter_ge0 ps))[|le]; first by left.
right=> j lj; have lj' : (j < (size ps).-1)%N by lia.
by move: le (mi j lj'); rewrite !nth_edges //; lra.
Qed.

(** ** The new vertex *)
Lemma delete_nth i vs j : (i < size vs)%N -> nth v0 (delete i vs) j = nth v0 vs (if (j < i)%N then j else j.+1).
Proof.
move=> li; rewrite /delete nth_cat size_takel ?(ltnW li) //; case: ifP => h; first by rewrite nth_take.
by rewrite nth_drop; congr nth; lia.
Qed.
Lemma round_vertex limit ps ws : remove_one_point limit (map fin ps) = Ok (ws, true) ->
  let m := size ps in let p j := nth (0, 0) ps j in
  exists2 i, (i.+1 < m)%N & (edge ps i < limit * perimeter ps /\ forall j, (j.+1 < m)%N -> edge ps i <= edge ps j) /\
  (forall j, (j < m.-1)%N -> j <> i -> nth v0 ws j = fin (p (if (j <= i)%N then j else j.+1))) /\
  (det (p ((i + m.-1) %% m)%N) (p i) (p i.+1) (p (i.+2 %% m)%N) <> 0 ->
   exists2 q, nth v0 ws i = fin q & on_line (p ((i + m.-1) %% m)%N) (p i) q /\ on_line (p i.+1) (p (i.+2 %% m)%N) q) /\
  (det (p ((i + m.-1) %% m)%N) (p i) (p i.+1) (p (i.+2 %% m)%N) = 0 -> nth v0 ws i = (PInf, PInf)).
Proof.
move=> /round_true[i Ei [li E -> _]] m p; rewrite !size_map in li *.
have P j : (j < m)%N -> nth v0 (map fin ps) j = fin (p j) by move=> lj; rewrite (nth_map (0, 0)).
have m0 : (0 < m)%N by rewrite /m; lia.
have Sm : size (set_nth v0 (map fin ps) i (get_intersect (nth v0 (map fin ps) ((i + m.-1) %% m)) (nth v0 (map fin ps) i)
  (nth v0 (map fin ps) i.+1) (nth v0 (map fin ps) (i.+2 %% m)))) = m.
  by rewrite size_set_nth size_map; apply/maxn_idPr; lia.
exists i => //; split.
  move: Ei E; rewrite esum_lengths lengths_fin => /argmin_fin; rewrite size_mkseq => -[li' mi].
  rewrite (nth_map 0) ?size_mkseq // nth_edges // => /(ratio_lt (perimeter_ge0 ps) (sqlen_ge0 _ _))[_ h].
  by split=> // j lj; have := mi j; rewrite !nth_edges //; [apply | rewrite /m in lj]; lia.
rewrite -/m in li *; rewrite !P ?ltn_pmod // ?(ltnW li) // in Sm *.
split.
  move=> j lj ji; rewrite delete_nth ?Sm // ltnS; case lji: (j <= i)%N; rewrite nth_set_nth /=.
    by case: (j =P i) => // _; rewrite P //; move: lj; lia.
  by case: (j.+1 =P i) => [e|_]; [exfalso; lia | rewrite P //; move: lj; lia].
by split=> D; rewrite delete_nth ?Sm // ltnS leqnn nth_set_nth /= eqxx; [exact: intersect_fin | exact: intersect_parallel].
Qed.

(** ** Witnesses *)
Lemma remove_at limit ps i : (i.+1 < size ps)%N -> argmin (lengths (map fin ps)) = Ok i ->
  edge ps i < limit * perimeter ps -> perimeter ps <> 0 -> exists ws, remove_one_point limit (map fin ps) = Ok (ws, true).
Proof.
move=> li Ei h p0; rewrite /remove_one_point Ei /= esum_lengths lengths_fin (nth_map 0) ?size_mkseq; last lia.
rewrite nth_edges; last lia.
rewrite /ediv; case: (Req_EM_T (perimeter ps) 0) => [e|? /=]; first by case: p0.
 have pp := perimeter_ge0 ps; case: (Rlt_dec (edge ps i / perimeter ps) limit) => [?|[]]; first by eexists; reflexivity.
apply: (Rmult_lt_reg_r (perimeter ps)); first lra.
by have -> : edge ps i / perimeter ps * perimeter ps = edge ps i by field.
Qed.
Definition rectangle : seq (R * R) := [:: (0, 0); (10, 0); (10, 1 / 10); (0, 1 / 10)].
Ltac decR := repeat match goal with |- context [Rlt_dec ?a ?b] => case: (Rlt_dec a b) => ?; try (exfalso; lra) end.
Lemma rectangle_argmin : argmin (lengths (map fin rectangle)) = Ok 1%N.
Proof. by rewrite lengths_fin /= /better /= /edge /sqlen /=; decR. Qed.
Lemma rectangle_infinite : exists2 ws, remove_one_point (1 / 100) (map fin rectangle) = Ok (ws, true) & nth v0 ws 1 = (PInf, PInf).
Proof.
have [||ws E] := @remove_at (1 / 100) rectangle 1 isT rectangle_argmin.
- by rewrite /edge /perimeter /= /sqlen /=; lra.
- by rewrite /perimeter /= /sqlen /=; lra.
exists ws => //.
have [i [Ei _]] : exists i, argmin (lengths (map fin rectangle)) = Ok i /\ True by exists 1%N; rewrite rectangle_argmin.
have [j Ej [lj _ -> _]] := round_true E; move: Ej; rewrite rectangle_argmin => -[<-].
rewrite delete_nth // nth_set_nth /=; apply: (@intersect_parallel (0, 0) (10, 0) (10, 1 / 10) (0, 1 / 10)).
by rewrite /det /=; ring.
Qed.
(** A good quadrilateral whose third edge is small. *)
Definition chamfered : seq (R * R) := [:: (0, 0); (10, 0); (10, 9); (9, 10); (0, 10)].
Lemma chamfered_round : exists2 ws, remove_one_point (1 / 100) (map fin chamfered) = Ok (ws, true) & nth v0 ws 2 = (Fin 10, Fin 10).
Proof.
have A : argmin (lengths (map fin chamfered)) = Ok 2%N.
  by rewrite lengths_fin /= /better /= /edge /sqlen /=; decR.
have [||ws E] := @remove_at (1 / 100) chamfered 2 isT A.
- by rewrite /edge /perimeter /= /sqlen /=; lra.
- by rewrite /perimeter /= /sqlen /=; lra.
exists ws => //.
have [j Ej [lj _ -> _]] := round_true E; move: Ej; rewrite A => -[<-].
rewrite delete_nth // nth_set_nth /=.
have D : det (10, 0) (10, 9) (9, 10) (0, 10) <> 0 by rewrite /det /=; lra.
have [q -> [q1 q2]] := @intersect_fin (10, 0) (10, 9) (9, 10) (0, 10) D.
rewrite (@intersect_unique _ _ _ _ q (10, 10) D) //; rewrite /on_line /area /=; lra.
Qed.
(** With a limit above one, down to one vertex and an error. *)
Definition segment : seq (R * R) := [:: (0, 0); (1, 0)].
Lemma segment_error : simplify 3 2 (map fin segment) = Some (Err ValueError).
Proof.
have A : argmin (lengths (map fin segment)) = Ok 0%N by rewrite lengths_fin.
have [||ws E] := @remove_at 2 segment 0 isT A.
- by rewrite /edge /perimeter /= /sqlen /=; lra.
- by rewrite /perimeter /= /sqlen /=; lra.
have [i _ [_ _ _ sw]] := round_true E.
have S f vs : remove_one_point 2 vs = Ok (ws, true) -> simplify f.+1 2 vs = simplify f 2 ws by move=> /= ->.
rewrite (S 2%N _ E).
by case: ws sw {E S} => [|w [|]] //=.
Qed.
(** The closing edge is never looked at. *)
Definition closing : seq (R * R) := [:: (0, 0); (10, 0); (10, 10); (1 / 10, 1 / 10)].
Lemma closing_kept : remove_one_point (1 / 100) (map fin closing) = Ok (map fin closing, false) /\
  sqlen (1 / 10, 1 / 10) (0, 0) < 1 / 100 * (perimeter closing + sqlen (1 / 10, 1 / 10) (0, 0)).
Proof.
split; last by rewrite /perimeter /= /sqlen /=; lra.
case E: (remove_one_point (1 / 100) (map fin closing)) => [[ws []]|e]; last by have [_] := round_err E.
  have [i li [[h mi] _]] := round_vertex E.
  exfalso; move: h; rewrite /edge /perimeter /= /sqlen; case: i li mi => [|[|[|i]]] //= _ _; lra.
by have [-> _] := round_stop E.
Qed.
