(** * Property C51: mesh helpers. *)
From Coq Require Import Reals Lra.
From mathcomp Require Import all_ssreflect.
From Verif Require Import Base Mesh MeshProofs.
Set Implicit Arguments.
Unset Strict Implicit.
Unset Printing Implicit Defensive.
Local Open Scope R_scope.

(** C51. The intersection of two lines which are not parallel: the only point on both. *)
Theorem C51_intersect a1 a2 b1 b2 : det a1 a2 b1 b2 <> 0 ->
  exists2 p, get_intersect (fin a1) (fin a2) (fin b1) (fin b2) = fin p &
  forall q, (on_line a1 a2 q /\ on_line b1 b2 q) <-> q = p.
Proof.
move=> D; have [p E [h1 h2]] := intersect_fin D; exists p => // q; split=> [[q1 q2]|-> //].
exact: intersect_unique D q1 q2 h1 h2.
Qed.
Theorem C51_parallel a1 a2 b1 b2 : det a1 a2 b1 b2 = 0 ->
  get_intersect (fin a1) (fin a2) (fin b1) (fin b2) = (PInf, PInf).
Proof. exact: intersect_parallel. Qed.
(** The graded line. *)
Theorem C51_graded_partial xs xe n r : r ^ n <> 1 -> exists2 l, non_uniform_line xs xe n r = Ok l &
  [/\ size l = n.+1, nth 0 l 0 = xs, nth 0 l n = xe,
  forall i, (i.+2 <= n)%N -> nth 0 l i.+2 - nth 0 l i.+1 = r * (nth 0 l i.+1 - nth 0 l i) &
  0 < r -> xs < xe -> forall i, (i < n)%N -> nth 0 l i < nth 0 l i.+1].
Proof.
move=> h; have [l -> [sz Hl]] := non_uniformE xs xe h; exists l => //.
have [e0 en] := non_uniform_ends xs xe h; split=> //; rewrite ?Hl //.
  by move=> i li; rewrite !Hl ?non_uniform_ratio // ltnW // ltnW.
move=> r0 xx i li; rewrite !Hl //; last exact: ltnW.
by apply: non_uniform_increasing => // r1; apply: h; rewrite r1 pow1.
Qed.
(** Equal elements cannot be asked for. *)
Theorem C51_graded_refuted : exists xs xe n r, xs < xe /\ 0 < r /\ (0 < n)%N /\ non_uniform_line xs xe n r = Err ZeroDivision.
Proof. by exists 0, 1, 2%N, 1; split; [lra | split; [lra | split; last exact: non_uniform_equal]]. Qed.
Theorem C51_uniform xs xe n : (0 < n)%N -> let l := uniform_line xs xe n in
  [/\ size l = n.+1, nth 0 l 0 = xs, nth 0 l n = xe &
  forall i, (i < n)%N -> nth 0 l i.+1 - nth 0 l i = (xe - xs) / INR n].
Proof. exact: uniformE. Qed.
(** One round: one vertex less, the smallest consecutive edge, the other vertices kept in order,
    the new one at the intersection of the neighbouring edges. *)
Theorem C51_round limit vs ws b : remove_one_point limit vs = Ok (ws, b) ->
  if b then (size ws).+1 = size vs else ws = vs.
Proof.
case: b => h; last exact: round_false h.
by have [i _ [li _ _ ->]] := round_true h; rewrite prednK // (leq_ltn_trans _ li).
Qed.
Theorem C51_vertex limit ps ws : remove_one_point limit (map fin ps) = Ok (ws, true) ->
  let m := size ps in let p j := nth (0, 0) ps j in
  exists2 i, (i.+1 < m)%N & (edge ps i < limit * perimeter ps /\ forall j, (j.+1 < m)%N -> edge ps i <= edge ps j) /\
  (forall j, (j < m.-1)%N -> j <> i -> nth v0 ws j = fin (p (if (j <= i)%N then j else j.+1))) /\
  (det (p ((i + m.-1) %% m)%N) (p i) (p i.+1) (p (i.+2 %% m)%N) <> 0 ->
   exists2 q, nth v0 ws i = fin q & on_line (p ((i + m.-1) %% m)%N) (p i) q /\ on_line (p i.+1) (p (i.+2 %% m)%N) q) /\
  (det (p ((i + m.-1) %% m)%N) (p i) (p i.+1) (p (i.+2 %% m)%N) = 0 -> nth v0 ws i = (PInf, PInf)).
Proof. exact: round_vertex. Qed.
Theorem C51_stop limit ps ws : remove_one_point limit (map fin ps) = Ok (ws, false) ->
  ws = map fin ps /\ (perimeter ps = 0 \/ forall j, (j.+1 < size ps)%N -> limit * perimeter ps <= edge ps j).
Proof. exact: round_stop. Qed.
(** The simplification ends, after at most one round per vertex... *)
Theorem C51_terminates limit vs : exists r, forall fuel, (size vs < fuel)%N -> simplify fuel limit vs = Some r.
Proof. exact: simplify_terminates. Qed.
(** ...and for the limits that make sense never fails, leaving two vertices at least. *)
Theorem C51_no_error limit vs fuel r : limit <= 1 -> (2 <= size vs)%N -> simplify fuel limit vs = Some r ->
  exists2 ws, r = Ok ws & (2 <= size ws <= size vs)%N.
Proof. exact: simplify_ok. Qed.
Theorem C51_hull limit vs : (2 <= size vs)%N -> limit <= 1 ->
  exists2 ws, simplify_hull (size vs).+1 limit vs = Some (Ok ws) & (2 <= size ws <= size vs)%N.
Proof.
move=> v2 l1; rewrite /simplify_hull; case: (Rlt_dec 0 limit) => [h|h].
  have [r /(_ _ (ltnSn _)) E] := simplify_terminates limit vs.
  by have [ws er lw] := simplify_ok l1 v2 E; exists ws; rewrite // E er.
by exists vs; rewrite ?v2 /=.
Qed.
(** A thin rectangle gets a vertex at infinity. *)
Theorem C51_rectangle_refuted : exists ps ws, size ps = 4%N /\
  remove_one_point (1 / 100) (map fin ps) = Ok (ws, true) /\ exists j, nth v0 ws j = (PInf, PInf).
Proof. by have [ws h1 h2] := rectangle_infinite; exists rectangle, ws; split=> //; split=> //; exists 1%N. Qed.
(** The edge which closes the polygon is never looked at. *)
Theorem C51_closing_refuted : exists p q ps, let poly := p :: rcons ps q in
  remove_one_point (1 / 100) (map fin poly) = Ok (map fin poly, false) /\
  sqlen q p < 1 / 100 * (perimeter poly + sqlen q p).
Proof. by exists (0, 0), (1 / 10, 1 / 10), [:: (10, 0); (10, 10)]; exact: closing_kept. Qed.
Theorem C51_error_refuted : exists limit vs, (2 <= size vs)%N /\ simplify (size vs).+1 limit vs = Some (Err ValueError).
Proof. by exists 2, (map fin segment); split; last exact: segment_error. Qed.
Print Assumptions C51_intersect.
Print Assumptions C51_parallel.
Print Assumptions C51_graded_partial.
Print Assumptions C51_graded_refuted.
Print Assumptions C51_uniform.
Print Assumptions C51_round.
Print Assumptions C51_vertex.
Print Assumptions C51_stop.
Print Assumptions C51_terminates.
Print Assumptions C51_no_error.
Print Assumptions C51_hull.
Print Assumptions C51_rectangle_refuted.
Print Assumptions C51_closing_refuted.
Print Assumptions C51_error_refuted.
(** A square with a cut corner gets its corner back; two crossing diagonals; a line doubling its
    elements. *)
Example C51_example : exists2 ws, remove_one_point (1 / 100) (map fin chamfered) = Ok (ws, true) & nth v0 ws 2 = (Fin 10, Fin 10).
Proof. exact: chamfered_round. Qed.
Example C51_example_lines : det (0, 0) (2, 2) (0, 2) (2, 0) <> 0 /\
  get_intersect (fin (0, 0)) (fin (2, 2)) (fin (0, 2)) (fin (2, 0)) = fin (1, 1).
Proof.
have D : det (0, 0) (2, 2) (0, 2) (2, 0) <> 0 by rewrite /det /=; lra.
by split=> //; have [p -> h] := C51_intersect D; rewrite -(proj1 (h (1, 1))) // /on_line /area /=; split; ring.
Qed.
Example C51_example_graded : 2 ^ 3 <> 1 /\ exists2 l, non_uniform_line 0 7 3 2 = Ok l & nth 0 l 1 = 1.
Proof.
have h : 2 ^ 3 <> 1 by rewrite /=; lra.
split=> //; have [l -> [_ Hl]] := non_uniformE 0 7 h; exists l => //.
by rewrite Hl // /point_of /=; field.
Qed.
