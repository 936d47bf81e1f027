(** * Finite differences, jump correction, time axis, histogram: proofs. *)
From mathcomp Require Import all_ssreflect all_algebra.
From mathcomp Require Import zify.
From Verif Require Import Base Tactics Frames.
Set Implicit Arguments.
Unset Strict Implicit.
Unset Printing Implicit Defensive.
Import Order.TTheory GRing.Theory Num.Theory.
Local Open Scope ring_scope.

(** ** Specification: the samples kept and the values there. *)
Section Spec.
Variables (R : realFieldType) (d : nat).

(** The sample at time index [t], when it exists and has no missing component. *)
Definition valid_at (x : seq 'rV[option R]_d) (t : nat) : option 'rV[R]_d :=
  if (t < size x)%N then all_some (nth (nan_row R d) x t) else None.

Definition known (x : seq 'rV[option R]_d) (t : nat) : bool := valid_at x t.
Definition value (x : seq 'rV[option R]_d) (t : nat) : 'rV[R]_d := odflt 0 (valid_at x t).

(** Both neighbours and the sample itself. *)
Definition interior (x : seq 'rV[option R]_d) (t : nat) : bool :=
  [&& (0 < t)%N, known x t.-1, known x t & known x t.+1].

End Spec.

Section Basics.
Variables (R : realFieldType) (d : nat).
Local Notation orow := 'rV[option R]_d.
Implicit Types (x y : orow) (a b : 'rV[R]_d).

Definition some_row a : orow := map_mx Some a.

Lemma all_someP x a : all_some x = Some a <-> x = some_row a.
Proof.
rewrite /all_some; split.
  case: forallP => // H [<-]; apply/matrixP => i j; rewrite !mxE ord1.
  by have := H j; case: (x 0 j).
move=> ->; case: forallP => [_|[]]; last by move=> j; rewrite mxE.
by congr Some; apply/matrixP => i j; rewrite !mxE ord1.
Qed.

Lemma all_some_some a : all_some (some_row a) = Some a.
Proof. exact/all_someP. Qed.

Lemma osub_some a b : osub (some_row a) (some_row b) = some_row (a - b).
Proof. by apply/matrixP => i j; rewrite !mxE. Qed.

Lemma oadd_some a b : oadd (some_row a) (some_row b) = some_row (a + b).
Proof. by apply/matrixP => i j; rewrite !mxE. Qed.

Lemma oscale_some c a : oscale c (some_row a) = some_row (c *: a).
Proof. by apply/matrixP => i j; rewrite !mxE. Qed.

Lemma all_some_ex x : (forall j, x 0 j) -> exists a, x = some_row a.
Proof.
move=> H; exists (\row_j odflt 0 (x 0 j)); apply/all_someP; rewrite /all_some.
by case: forallP.
Qed.

Lemma osub_inv x y c : osub x y = some_row c -> exists a b, x = some_row a /\ y = some_row b.
Proof.
move=> H; have [] : (forall j, x 0 j) /\ (forall j, y 0 j).
  split=> j; have := congr1 (fun M : orow => M 0 j) H; rewrite !mxE /omap2;
    by case: (x 0 j) => //= u; case: (y 0 j).
by move=> /all_some_ex[a ->] /all_some_ex[b ->]; exists a, b.
Qed.

Lemma oscale_inv c x b : oscale c x = some_row b -> exists a, x = some_row a.
Proof.
move=> H; apply: all_some_ex => j; have := congr1 (fun M : orow => M 0 j) H.
by rewrite !mxE; case: (x 0 j).
Qed.

Lemma oadd_inv x y c : oadd x y = some_row c -> exists a b, x = some_row a /\ y = some_row b.
Proof.
move=> H; have [] : (forall j, x 0 j) /\ (forall j, y 0 j).
  split=> j; have := congr1 (fun M : orow => M 0 j) H; rewrite !mxE /omap2;
    by case: (x 0 j) => //= u; case: (y 0 j).
by move=> /all_some_ex[a ->] /all_some_ex[b ->]; exists a, b.
Qed.

Lemma nth_seq2 f (s t : seq orow) i : size s = size t -> (i < size s)%N ->
  nth (nan_row R d) (seq2 f s t) i = f (nth (nan_row R d) s i) (nth (nan_row R d) t i).
Proof.
move=> st li; rewrite (nth_map (nan_row R d, nan_row R d)) ?size_zip -?st ?minnn //.
by rewrite nth_zip.
Qed.

Lemma nth_scale c (s : seq orow) i :
  nth (nan_row R d) [seq oscale c r | r <- s] i = oscale c (nth (nan_row R d) s i).
Proof.
have [lt|ge] := ltnP i (size s); first by rewrite (nth_map (nan_row R d)).
by rewrite !nth_default ?size_map //; apply/matrixP => a b; rewrite !mxE.
Qed.

Lemma size_seq2 f (s t : seq orow) : size s = size t -> size (seq2 f s t) = size s.
Proof. by move=> st; rewrite size_map size_zip st minnn. Qed.

Lemma size_fwd (s : seq orow) : size (shift_fwd s) = size s.
Proof. exact: size_mkseq. Qed.

Lemma size_bwd (s : seq orow) : size (shift_bwd s) = size s.
Proof. exact: size_mkseq. Qed.

Lemma pmap_filter (T : Type) (f : nat -> option T) (p : pred nat) (g : nat -> T) s :
  (forall t, t \in s -> f t = if p t then Some (g t) else None) ->
  pmap f s = [seq g t | t <- s & p t].
Proof.
elim: s => [|t s IH] //= H; rewrite /oapp H ?mem_head //.
have IH' := IH (fun u us => H u (_ : u \in t :: s)).
by case: (p t) => /=; rewrite IH // => u us; apply: H; rewrite inE us orbT.
Qed.

End Basics.

Section Differences.
Variables (R : realFieldType) (d' : nat).
Local Notation d := d'.+1.
Local Notation orow := 'rV[option R]_d.
Local Notation nan := (nan_row R d).
Implicit Types (x : seq orow).

Lemma nan_not_some a : nan <> some_row a.
Proof. by move=> /matrixP /(_ 0 0); rewrite !mxE. Qed.

Lemma nth_some x t a : nth nan x t = some_row a <-> valid_at x t = Some a.
Proof.
rewrite /valid_at; case: ltnP => lt; first by split=> /all_someP.
by rewrite nth_default //; split=> // /nan_not_some.
Qed.

Lemma nth_known x t : known x t -> nth nan x t = some_row (value x t).
Proof. by rewrite /known /value; case E: (valid_at x t) => [a|] // _; apply/nth_some. Qed.

Lemma some_known x t a : nth nan x t = some_row a -> known x t.
Proof. by move/nth_some; rewrite /known => ->. Qed.

Definition prev x t := if t is t'.+1 then nth nan x t' else nan.

Lemma nth_diffs x t : (t < size x)%N ->
  nth nan (differences false 0 0 x) t = osub (nth nan x t) (prev x t).
Proof. by move=> lt; rewrite nth_seq2 ?size_fwd // nth_mkseq. Qed.

Lemma size_diffs b jump thr x : size (differences b jump thr x) = size x.
Proof. by rewrite /differences; case: b; rewrite ?size_map size_zip size_fwd minnn. Qed.

(** The two differences at [t], in terms of the sequence of steps. *)
Section Out.
Variables (df : seq orow) (x : seq orow).
Hypothesis sdf : size df = size x.

Lemma nth_bwd t : (t < size x)%N -> nth nan (shift_bwd df) t = nth nan df t.+1.
Proof. by move=> lt; rewrite nth_mkseq ?sdf. Qed.

Lemma nth_dd t : (t < size x)%N ->
  nth nan (seq2 (@osub R d) (shift_bwd df) df) t = osub (nth nan df t.+1) (nth nan df t).
Proof. by move=> lt; rewrite nth_seq2 ?size_bwd ?sdf // nth_bwd. Qed.

Lemma nth_sd l l' t : (t < size x)%N ->
  nth nan (seq2 (@oadd R d) [seq oscale l r | r <- shift_bwd df] [seq oscale l' r | r <- df]) t
  = oadd (oscale l (nth nan df t.+1)) (oscale l' (nth nan df t)).
Proof.
move=> lt; rewrite nth_seq2 ?size_map ?size_iota ?size_bwd ?sdf //.
by rewrite !nth_scale nth_bwd.
Qed.
End Out.

Lemma diffs_some x t c : nth nan (differences false 0 0 x) t = some_row c ->
  [/\ (0 < t)%N, known x t.-1, known x t & c = value x t - value x t.-1].
Proof.
have [lt|ge] := ltnP t (size x); last by rewrite nth_default ?size_diffs // => /nan_not_some.
rewrite nth_diffs // => H; have [a [b [Ha Hb]]] := osub_inv H.
case: t lt H Ha Hb => [|t] lt H Ha /= Hb; first by case/nan_not_some: Hb.
rewrite (some_known Ha) (some_known Hb); split=> //.
move: H; rewrite /= Ha Hb osub_some => /all_someP; rewrite all_some_some => -[<-].
by rewrite /value (proj1 (nth_some _ _ _) Ha) (proj1 (nth_some _ _ _) Hb).
Qed.

Lemma diffs_known x t : known x t -> known x t.+1 ->
  nth nan (differences false 0 0 x) t.+1 = some_row (value x t.+1 - value x t).
Proof.
move=> k1 k2; rewrite nth_diffs; last by move: k2; rewrite /known /valid_at; case: ltnP.
by rewrite /= (nth_known k1) (nth_known k2) osub_some.
Qed.

Lemma known_lt x t : known x t -> (t < size x)%N.
Proof. by rewrite /known /valid_at; case: ltnP. Qed.

(** [compute_va] without jump correction, for any weight. *)
Lemma compute_vaE jump thr lamb dt time x :
  compute_va false jump thr lamb dt time x =
  [seq (time`_t, value x t,
        dt^-1 *: (lamb *: (value x t.+1 - value x t) + (1 - lamb) *: (value x t - value x t.-1)),
        (dt ^+ 2)^-1 *: ((value x t.+1 - value x t) - (value x t - value x t.-1)))
  | t <- iota 0 (size x) & interior x t].
Proof.
rewrite /compute_va /dropna; apply: pmap_filter => t; rewrite mem_iota /= add0n => lt.
have sd := size_diffs false jump thr x; rewrite -[differences false _ _ x]/(differences false 0 0 x) in sd *.
rewrite !nth_scale (nth_sd sd) // (nth_dd sd) //.
rewrite /interior; case I: [&& _, _, _ & _].
  case: t lt I => [|t] lt //= /and3P[k1 k2 k3].
  rewrite (diffs_known k1 k2) (diffs_known k2 k3) (nth_known k2).
  by rewrite !(all_some_some, oscale_some, osub_some, oadd_some).
case Ex: (all_some _) => [xt|] //; case Ev: (all_some _) => [vt|] //; case Ea: (all_some _) => [at_|] //.
move/all_someP/oscale_inv: Ea => [a /osub_inv [b [c [/diffs_some [_ _ k3 _] /diffs_some [t0 k1 k2 _]]]]].
by move: I; rewrite t0 k1 k2 /= in k3 *; rewrite k3.
Qed.

Lemma compute_va_gjfE jump thr dt time x :
  compute_va_gjf false jump thr dt time x =
  [seq (time`_t, value x t, dt^-1 *: (value x t - value x t.-1),
        (dt ^+ 2)^-1 *: ((value x t.+1 - value x t) - (value x t - value x t.-1)))
  | t <- iota 0 (size x) & interior x t].
Proof.
rewrite /compute_va_gjf /dropna; apply: pmap_filter => t; rewrite mem_iota /= add0n => lt.
have sd := size_diffs false jump thr x; rewrite -[differences false _ _ x]/(differences false 0 0 x) in sd *.
rewrite !nth_scale (nth_dd sd) //.
rewrite /interior; case I: [&& _, _, _ & _].
  case: t lt I => [|t] lt //= /and3P[k1 k2 k3].
  rewrite (diffs_known k1 k2) (diffs_known k2 k3) (nth_known k2).
  by rewrite !(all_some_some, oscale_some, osub_some, oadd_some).
case Ex: (all_some _) => [xt|] //; case Ev: (all_some _) => [vt|] //; case Ea: (all_some _) => [at_|] //.
move/all_someP/oscale_inv: Ea => [a /osub_inv [b [c [/diffs_some [_ _ k3 _] /diffs_some [t0 k1 k2 _]]]]].
by move: I; rewrite t0 k1 k2 /= in k3 *; rewrite k3.
Qed.

Lemma compute_aE dt time x v : size v = size x ->
  compute_a dt time x v =
  [seq (time`_t, value x t, value v t,
        (dt ^+ 2)^-1 *: ((value x t.+1 - value x t) - (value x t - value x t.-1)))
  | t <- iota 0 (size x) & interior x t && known v t].
Proof.
move=> sv; rewrite /compute_a /dropna; apply: pmap_filter => t; rewrite mem_iota /= add0n => lt.
have sd := size_diffs false 0 0 x; rewrite -[seq2 _ _ (shift_fwd x)]/(differences false 0 0 x).
rewrite !nth_scale (nth_dd sd) //.
rewrite /interior; case I: ([&& _, _, _ & _] && _).
  case: t lt I => [|t] lt //= /andP[/and3P[k1 k2 k3] kv].
  rewrite (diffs_known k1 k2) (diffs_known k2 k3) (nth_known k2) (nth_known kv).
  by rewrite !(all_some_some, oscale_some, osub_some, oadd_some).
case Ex: (all_some _) => [xt|] //; case Ev: (all_some _) => [vt|] //; case Ea: (all_some _) => [at_|] //.
move/all_someP/some_known: Ev => kv.
move/all_someP/oscale_inv: Ea => [a /osub_inv [b [c [/diffs_some [_ _ k3 _] /diffs_some [t0 k1 k2 _]]]]].
by move: I; rewrite t0 k1 k2 kv /= in k3 *; rewrite k3.
Qed.

Lemma compute_a_from_velE dt time x v : size v = size x ->
  compute_a_from_vel dt time x v =
  [seq (time`_t, value x t, value v t, (2%:R * dt)^-1 *: (value v t.+1 - value v t.-1))
  | t <- iota 0 (size x) & interior v t && known x t].
Proof.
move=> sv; rewrite /compute_a_from_vel /dropna; apply: pmap_filter => t; rewrite mem_iota /= add0n => lt.
rewrite !nth_scale nth_seq2 ?size_bwd ?size_fwd ?sv //.
rewrite !nth_mkseq ?sv // -/(prev v t).
rewrite /interior; case I: ([&& _, _, _ & _] && _).
  case: t lt I => [|t] lt //= /andP[/and3P[k1 k2 k3] kv].
  rewrite (nth_known k1) (nth_known k2) (nth_known k3) (nth_known kv).
  by rewrite !(all_some_some, oscale_some, osub_some, oadd_some).
case Ex: (all_some _) => [xt|] //; case Ev: (all_some _) => [vt|] //; case Ea: (all_some _) => [at_|] //.
move/all_someP/some_known: Ev => kv; move/all_someP/some_known: Ex => kx.
move/all_someP/oscale_inv: Ea => [a /osub_inv [b [c [/some_known k3 E]]]].
case: t lt I kx kv k3 E => [|t] lt I kx kv k3 /= E; first by case/nan_not_some: E.
by move: I; rewrite /= (some_known E) kv k3 kx.
Qed.

(** ** Exactness on quadratic trajectories *)
Definition quad (c0 c1 c2 : 'rV[R]_d) (s : R) : 'rV[R]_d := c0 + s *: c1 + s ^+ 2 *: c2.

Section Quadratic.
Add Field RF : (mc_field_theory R).
Variables (c0 c1 c2 : 'rV[R]_d) (t0 dt : R).
Hypothesis dt0 : dt != 0.
Local Notation tm t := (t0 + t%:R * dt).

Lemma tmS t : tm t.+1 = tm t + dt.
Proof. by rewrite -addn1 natrD mulrDl mul1r addrA. Qed.

Lemma tmP t : (0 < t)%N -> tm t.-1 = tm t - dt.
Proof. by case: t => // t _; rewrite tmS addrK. Qed.

Lemma quad_v t : (0 < t)%N ->
  dt^-1 *: (2^-1 *: (quad c0 c1 c2 (tm t.+1) - quad c0 c1 c2 (tm t))
            + (1 - 2^-1) *: (quad c0 c1 c2 (tm t) - quad c0 c1 c2 (tm t.-1)))
  = c1 + (2%:R * tm t) *: c2.
Proof.
move=> t1; rewrite (tmP t1) tmS; move: (tm t) => s; rewrite /quad.
apply/matrixP => i j; rewrite !mxE; move: (c0 i j) (c1 i j) (c2 i j) => u v z.
fold_ring (Num.RealField.fieldType R); field; nz_solve R.
Qed.

Lemma quad_a t : (0 < t)%N ->
  (dt ^+ 2)^-1 *: ((quad c0 c1 c2 (tm t.+1) - quad c0 c1 c2 (tm t))
                   - (quad c0 c1 c2 (tm t) - quad c0 c1 c2 (tm t.-1)))
  = 2%:R *: c2.
Proof.
move=> t1; rewrite (tmP t1) tmS; move: (tm t) => s; rewrite /quad.
apply/matrixP => i j; rewrite !mxE; move: (c0 i j) (c1 i j) (c2 i j) => u v z.
fold_ring (Num.RealField.fieldType R); field; nz_solve R.
Qed.

Lemma quad_av t : (0 < t)%N ->
  (2%:R * dt)^-1 *: (quad c0 c1 c2 (tm t.+1) - quad c0 c1 c2 (tm t.-1))
  = c1 + (2%:R * tm t) *: c2.
Proof.
move=> t1; rewrite (tmP t1) tmS; move: (tm t) => s; rewrite /quad.
apply/matrixP => i j; rewrite !mxE; move: (c0 i j) (c1 i j) (c2 i j) => u v z.
fold_ring (Num.RealField.fieldType R); field; nz_solve R.
Qed.

End Quadratic.

Section Exact.
Add Field RF2 : (mc_field_theory R).
Variables (c0 c1 c2 : 'rV[R]_d) (t0 dt : R) (time : seq R).
Hypothesis dt0 : dt != 0.
Local Notation q := (quad c0 c1 c2).

Definition on_parabola (x : seq orow) := forall t a, valid_at x t = Some a -> a = q (t0 + t%:R * dt).

Lemma value_q x t : on_parabola x -> known x t -> value x t = q (t0 + t%:R * dt).
Proof. by move=> H; rewrite /known /value; case E: (valid_at x t) => [a|] // _; rewrite (H _ _ E). Qed.

Lemma compute_va_exact jump thr x : on_parabola x ->
  (forall t, (t < size x)%N -> time`_t = t0 + t%:R * dt) ->
  compute_va false jump thr 2^-1 dt time x =
  [seq (time`_t, q (time`_t), c1 + (2%:R * time`_t) *: c2, 2%:R *: c2)
  | t <- iota 0 (size x) & interior x t].
Proof.
move=> H Ht; rewrite compute_vaE; apply/eq_in_map => t; rewrite mem_filter mem_iota /= add0n.
case/andP=> /and4P[t1 k1 k2 k3] lt; rewrite Ht // !(value_q H) //.
by rewrite quad_v // quad_a.
Qed.

Lemma compute_a_exact x v : on_parabola x -> size v = size x ->
  (forall t, (t < size x)%N -> time`_t = t0 + t%:R * dt) ->
  compute_a dt time x v =
  [seq (time`_t, q (time`_t), value v t, 2%:R *: c2)
  | t <- iota 0 (size x) & interior x t && known v t].
Proof.
move=> H sv Ht; rewrite compute_aE //; apply/eq_in_map => t; rewrite mem_filter mem_iota /= add0n.
case/andP=> /andP[/and4P[t1 k1 k2 k3] kv] lt; rewrite Ht // !(value_q H) //.
by rewrite quad_a.
Qed.

Lemma compute_a_from_vel_exact x v : on_parabola v -> size v = size x ->
  (forall t, (t < size x)%N -> time`_t = t0 + t%:R * dt) ->
  compute_a_from_vel dt time x v =
  [seq (time`_t, value x t, q (time`_t), c1 + (2%:R * time`_t) *: c2)
  | t <- iota 0 (size x) & interior v t && known x t].
Proof.
move=> H sv Ht; rewrite compute_a_from_velE //; apply/eq_in_map => t; rewrite mem_filter mem_iota /= add0n.
case/andP=> /andP[/and4P[t1 k1 k2 k3] kv] lt; rewrite Ht // !(value_q H) //.
by rewrite quad_av.
Qed.

(** [compute_va_gjf] gives the derivative half a step earlier. *)
Lemma compute_va_gjf_exact jump thr x : on_parabola x ->
  (forall t, (t < size x)%N -> time`_t = t0 + t%:R * dt) ->
  compute_va_gjf false jump thr dt time x =
  [seq (time`_t, q (time`_t), c1 + (2%:R * (time`_t - dt / 2%:R)) *: c2, 2%:R *: c2)
  | t <- iota 0 (size x) & interior x t].
Proof.
move=> H Ht; rewrite compute_va_gjfE; apply/eq_in_map => t; rewrite mem_filter mem_iota /= add0n.
case/andP=> /and4P[t1 k1 k2 k3] lt; rewrite Ht // !(value_q H) // quad_a //; congr (_, _, _, _).
rewrite tmP //; move: (t0 + t%:R * dt) => u; rewrite /quad.
apply/matrixP => i j; rewrite !mxE; move: (c0 i j) (c1 i j) (c2 i j) => a b c.
fold_ring (Num.RealField.fieldType R); field; nz_solve R.
Qed.

End Exact.

(** ** Jump correction *)
Section Jumps.
Variables (P thr : R) (k : nat -> 'I_d -> int).

(** The data observed: the trajectory [y] wrapped by [k t j] periods. *)
Definition wrapped (y : seq orow) : seq orow :=
  mkseq (fun t => \matrix_(i, j) omap (fun v => v - P * (k t j)%:~R) (nth nan y t i j)) (size y).

(** Steps small compared with the threshold, at most one period wrapped per step. *)
Definition small_steps (y : seq orow) := forall t j a b,
  nth nan y t 0 j = Some a -> nth nan y t.+1 0 j = Some b ->
  [/\ `|b - a| < thr, `|b - a| <= P - thr & `|k t.+1 j - k t j| <= 1].

Lemma correct_step (a b : R) (m n : int) :
  `|b - a| < thr -> `|b - a| <= P - thr -> `|n - m| <= 1 ->
  let v := (b - P * n%:~R) - (a - P * m%:~R) in
  let v1 := if - thr < v then v else v + P in
  (if v1 < thr then v1 else v1 - P) = b - a.
Proof.
rewrite ltr_norml !ler_norml => /andP[l1 l2] /andP[l3 l4] /andP[z1 z2] v.
have -> : v = (b - a) - P * (n - m)%:~R by rewrite /v rmorphB /= mulrBr; abel.
have : n - m = 0 \/ n - m = 1 \/ n - m = -1 by lia.
case=> [->|[->|->]]; rewrite ?mulr0 ?subr0 ?mulr1 ?mulrN1 ?opprK.
- by rewrite l1 /= l2.
- rewrite ltNge (_ : b - a - P <= - thr) /=; last by rewrite ler_subl_addr [_ + P]addrC.
  by rewrite subrK l2.
- have l5 : thr <= b - a + P by rewrite -ler_subl_addr -opprB.
  have t0 : - thr < thr by apply: lt_trans l1 l2.
  by rewrite (lt_le_trans t0 l5) /= ltNge l5 /= addrK.
Qed.

Lemma wrapped_steps y : small_steps y ->
  differences true P thr (wrapped y) = differences false P thr y.
Proof.
move=> H; apply: (@eq_from_nth _ nan).
  by rewrite !size_diffs size_mkseq.
move=> t; rewrite size_diffs size_mkseq => lt.
rewrite -[differences false _ _ y]/(differences false 0 0 y) nth_diffs //.
rewrite /differences (nth_map nan) ?size_seq2 ?size_fwd ?size_mkseq // nth_seq2 ?size_fwd ?size_mkseq //.
rewrite !nth_mkseq ?size_mkseq //; apply/matrixP => i j; rewrite !mxE ord1.
case: t lt => [|t] lt; rewrite ?nth_mkseq ?(ltnW lt) //= !mxE.
  by case: (nth nan y 0 0 j).
case Eb: (nth nan y t.+1 0 j) => [b|] //; case Ea: (nth nan y t 0 j) => [a|] //=.
have [h1 h2 h3] := H _ _ _ _ Ea Eb; rewrite -(correct_step h1 h2 h3).
by case: (- thr < _) => /=; case: (_ < thr).
Qed.

Lemma wrapped_valid y t : isSome (all_some (nth nan (wrapped y) t)) = isSome (all_some (nth nan y t)).
Proof.
have [lt|ge] := ltnP t (size y); last by rewrite !nth_default ?size_mkseq.
rewrite nth_mkseq // /all_some; set p := [forall j, _]; set q := [forall j, _].
have -> : p = q by apply: eq_forallb => j; rewrite mxE; case: (nth nan y t 0 j).
by case: q.
Qed.

Lemma dropna_same (time : seq R) (x y v a : seq orow) : size x = size y ->
  (forall t, isSome (all_some (nth nan x t)) = isSome (all_some (nth nan y t))) ->
  [seq (s.1.1.1, s.1.2, s.2) | s : out_sample R d <- dropna time x v a]
  = [seq (s.1.1.1, s.1.2, s.2) | s : out_sample R d <- dropna time y v a].
Proof.
move=> sz H; rewrite /dropna sz; elim: (iota _ _) => [|t s IH] //=; move: (H t).
case: (all_some (nth nan x t)) => [xt|]; case: (all_some (nth nan y t)) => [yt|] // _.
by case: (all_some (nth nan v t)) => [vt|] //; case: (all_some (nth nan a t)) => [at_|] //=; rewrite IH.
Qed.

Lemma jumps_va lamb dt time y : small_steps y ->
  [seq (s.1.1.1, s.1.2, s.2) | s : out_sample R d <- compute_va true P thr lamb dt time (wrapped y)]
  = [seq (s.1.1.1, s.1.2, s.2) | s : out_sample R d <- compute_va false P thr lamb dt time y].
Proof.
move=> H; rewrite /compute_va (wrapped_steps H); apply: dropna_same; first exact: size_mkseq.
exact: wrapped_valid.
Qed.

Lemma jumps_va_gjf dt time y : small_steps y ->
  [seq (s.1.1.1, s.1.2, s.2) | s : out_sample R d <- compute_va_gjf true P thr dt time (wrapped y)]
  = [seq (s.1.1.1, s.1.2, s.2) | s : out_sample R d <- compute_va_gjf false P thr dt time y].
Proof.
move=> H; rewrite /compute_va_gjf (wrapped_steps H); apply: dropna_same; first exact: size_mkseq.
exact: wrapped_valid.
Qed.

End Jumps.

End Differences.
