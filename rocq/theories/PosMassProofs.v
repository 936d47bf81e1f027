(** * Position-dependent inverse mass: specification and proofs. *)
From mathcomp Require Import all_ssreflect all_algebra.
From Verif Require Import Base FKernel Model Estimator Evaluate PosMass EstimatorSpec EstimatorProofs.
Set Implicit Arguments.
Unset Strict Implicit.
Unset Printing Implicit Defensive.
Import Order.Theory GRing.Theory Num.Theory.
Local Open Scope ring_scope.

Section Spec.
Variables (R : realFieldType) (dx o : nat).
Local Notation smp := (sample R dx o).

(** Squared distance between the products [v_j v_k] and the fitted combinations of the
    arrays [kb], over samples and components. *)
Definition vv_error q (kb : smp -> 'M[R]_(q, dx)) (c : 'M[R]_(q, dx)) (xs : seq smp) : R :=
  \sum_(s <- xs) \sum_(j < dx) \sum_(k < dx)
    (s_v s 0 j * s_v s 0 k - \sum_(b < q) kb s b j * c b k) ^+ 2.

(** Mean over the samples of the products of two rows of [kb], summed over components. *)
Definition kb_gram q x (kb : smp -> 'M[R]_(q, x)) (xs : seq smp) : 'M[R]_q :=
  \matrix_(a, b) ((size xs)%:R^-1 * \sum_(s <- xs) \sum_(j < x) kb s a j * kb s b j).
End Spec.

Section Proofs.
Variables (R : realFieldType) (dx o : nat).
Local Notation smp := (sample R dx o).
Implicit Types (trajs : seq (seq smp)) (xs : seq smp).

Lemma kb_gramE q x (kb : smp -> 'M[R]_(q, x)) xs :
  sample_mean (fun s => kb s *m (kb s)^T) xs = kb_gram kb xs.
Proof.
apply/matrixP => a b; rewrite !mxE summxE; congr (_ * _); apply: eq_bigr => s _.
by rewrite mxE; apply: eq_bigr => j _; rewrite mxE.
Qed.

Lemma avg_loop_fails (V : lmodType R) (f : nat -> seq smp -> res V) trajs :
  (forall t, size t = 0%N -> exists e, f 0%N t = Err e) ->
  ~~ all_nonempty trajs -> exists x, avg_loop f trajs = Err x.
Proof.
move=> F; rewrite negb_and -leqNgt leqn0 => /orP[|].
  by move/nilP=> ->; exists OutOfBounds.
rewrite -has_predC => /hasP[t tl /=]; rewrite -leqNgt leqn0 => /nilP t0.
rewrite /avg_loop /loop_over_trajs.
have [e0 E0] := F [::] erefl.
have [e' ->] : exists e', mapM (fun p => f p.1 p.2) (zip [seq size t | t <- trajs] trajs) = Err e'.
  apply: (@mapM_err _ _ _ _ (0%N, [::]) e0) => //; rewrite -t0.
  elim: trajs tl => [|u l IH] //=; rewrite inE => /orP[/eqP<-|/IH]; last by right.
  by left; rewrite t0.
by exists e'.
Qed.

Lemma gram_kernel_pooled q x (kb : smp -> 'M[R]_(q, x)) trajs :
  all_nonempty trajs -> compute_gram_kernel kb trajs = Ok (kb_gram kb (flatten trajs)).
Proof.
case/all_nonemptyP=> n0 pos; rewrite /compute_gram_kernel /avg_loop -kb_gramE; apply: loop_pooled => // t tl.
by rewrite /kdot pos.
Qed.

Lemma gram_kernel_fails q x (kb : smp -> 'M[R]_(q, x)) trajs :
  ~~ all_nonempty trajs -> exists e, compute_gram_kernel kb trajs = Err e.
Proof. by apply: avg_loop_fails => t t0; exists ZeroDivision. Qed.

Definition kb_row q (kb : smp -> 'M[R]_(q, dx)) (p : smp * 'I_dx) : 'rV[R]_q := (col p.2 (kb p.1))^T.
Definition vv_row (p : smp * 'I_dx) : 'rV[R]_dx := s_v p.1 0 p.2 *: s_v p.1.
Definition comps xs : seq (smp * 'I_dx) := [seq (s, j) | s <- xs, j <- enum 'I_dx].

Lemma big_comps (F : smp * 'I_dx -> R) xs :
  \sum_(p <- comps xs) F p = \sum_(s <- xs) \sum_(j < dx) F (s, j).
Proof. by rewrite big_allpairs; apply: eq_bigr => s _; rewrite big_enum. Qed.

Lemma size_comps xs : size (comps xs) = (size xs * dx)%N.
Proof. by rewrite size_allpairs size_enum_ord. Qed.

Lemma comps_error q (kb : smp -> 'M[R]_(q, dx)) c xs :
  sq_residual (kb_row kb) vv_row c (comps xs) = vv_error kb c xs.
Proof.
rewrite /sq_residual big_comps; apply: eq_bigr => s _; apply: eq_bigr => j _.
apply: eq_bigr => k _; rewrite !mxE; congr ((_ - _) ^+ 2).
by apply: eq_bigr => b _; rewrite !mxE.
Qed.

Lemma comps_gram q (kb : smp -> 'M[R]_(q, dx)) xs :
  mean_product (kb_row kb) (kb_row kb) (comps xs) = dx%:R^-1 *: kb_gram kb xs.
Proof.
apply/matrixP => a b; rewrite !mxE size_comps natrM invfM [RHS]mulrA [dx%:R^-1 * _]mulrC big_comps.
congr (_ * _); apply: eq_bigr => s _; apply: eq_bigr => j _.
by rewrite !mxE.
Qed.

Definition kb_vv q (kb : smp -> 'M[R]_(q, dx)) xs : 'M[R]_(q, dx) :=
  sample_mean (fun s => kb s *m ((s_v s)^T *m s_v s)) xs.

Lemma comps_vv q (kb : smp -> 'M[R]_(q, dx)) xs :
  mean_product (kb_row kb) vv_row (comps xs) = dx%:R^-1 *: kb_vv kb xs.
Proof.
apply/matrixP => a k; rewrite !mxE summxE size_comps natrM invfM [RHS]mulrA [dx%:R^-1 * _]mulrC big_comps.
congr (_ * _); apply: eq_bigr => s _; rewrite mxE; apply: eq_bigr => j _.
by rewrite !mxE big_ord1 !mxE.
Qed.

Lemma pos_mass_ok q (kb : smp -> 'M[R]_(q, dx)) trajs c :
  compute_pos_effective_mass kb trajs = Ok c <->
  [/\ all_nonempty trajs, kb_gram kb (flatten trajs) \in unitmx
    & kb_gram kb (flatten trajs) *m c = kb_vv kb (flatten trajs)].
Proof.
rewrite /compute_pos_effective_mass.
case ne: (all_nonempty trajs); last first.
  have [t _|e ->] := @avg_loop_fails _ (vvdot kb) trajs _ (negbT ne); first by exists ZeroDivision.
  by split=> [|[]].
rewrite [avg_loop (kdot kb) _](gram_kernel_pooled kb ne).
have -> : avg_loop (vvdot kb) trajs = Ok (kb_vv kb (flatten trajs)).
  case/all_nonemptyP: ne => n0 pos; rewrite /avg_loop; apply: loop_pooled => // t tl.
  by rewrite /vvdot pos.
rewrite /= /solve_linear /finv; case uG: (kb_gram kb (flatten trajs) \in unitmx) => /=; split.
- by move=> -[<-]; split=> //; rewrite mulmxA mulmxV // mul1mx.
- by case=> _ _ <-; rewrite mulmxA mulVmx // mul1mx.
- by [].
- by case.
Qed.

Lemma pos_mass_success q (kb : smp -> 'M[R]_(q, dx)) trajs :
  (exists c, compute_pos_effective_mass kb trajs = Ok c) <->
  (all_nonempty trajs /\ kb_gram kb (flatten trajs) \in unitmx).
Proof.
split=> [[c] /pos_mass_ok[]//|[ne uG]].
exists (invmx (kb_gram kb (flatten trajs)) *m kb_vv kb (flatten trajs)).
by apply/pos_mass_ok; split=> //; rewrite mulmxA mulmxV // mul1mx.
Qed.

Lemma all_nonempty_flatten trajs : all_nonempty trajs -> (0 < size (flatten trajs))%N.
Proof. by case: trajs => [|[|s t] l]. Qed.

Lemma pos_mass_lsq q (kb : smp -> 'M[R]_(q, dx)) trajs c :
  compute_pos_effective_mass kb trajs = Ok c ->
  (forall c', vv_error kb c (flatten trajs) <= vv_error kb c' (flatten trajs)) /\
  (forall c', vv_error kb c' (flatten trajs) = vv_error kb c (flatten trajs) -> c' = c).
Proof.
case/pos_mass_ok=> ne uG N.
case: (posnP dx) => [d0|dpos].
  have E (A B : 'M[R]_(q, dx)) : A = B by apply/matrixP => i [j lj]; exfalso; rewrite d0 in lj.
  by split=> c'; [rewrite (E c c')|move=> _; apply: E].
have s0 : (0 < size (comps (flatten trajs)))%N by rewrite size_comps muln_gt0 dpos all_nonempty_flatten.
have d0 : dx%:R^-1 != 0 :> R by rewrite invr_eq0 pnatr_eq0 -lt0n.
have orth : residual_orthogonal (kb_row kb) vv_row c (comps (flatten trajs)).
  by apply/normal_orthogonal => //; rewrite comps_gram comps_vv -scalemxAl N.
split=> c'; rewrite -!comps_error; first exact: lsq_optimal.
by apply: lsq_unique => //; rewrite comps_gram unitmxZ // unitfE.
Qed.

(** Products of velocities that are combinations of the arrays are found exactly. *)
Lemma pos_mass_recovers q (kb : smp -> 'M[R]_(q, dx)) trajs (c c0 : 'M[R]_(q, dx)) :
  compute_pos_effective_mass kb trajs = Ok c ->
  (forall s, List.In s (flatten trajs) ->
     forall j k, s_v s 0 j * s_v s 0 k = \sum_(b < q) kb s b j * c0 b k) -> c = c0.
Proof.
case/pos_mass_lsq=> opt uni H; symmetry; apply: uni; apply/eqP.
have z : vv_error kb c0 (flatten trajs) = 0.
  rewrite /vv_error; elim: (flatten trajs) H => [|s l IH] H; first by rewrite big_nil.
  rewrite big_cons IH ?addr0; last by move=> t tl; apply: H; right.
  by rewrite big1 // => j _; rewrite big1 // => k _; rewrite H ?subrr ?expr0n //; left.
have := opt c0; rewrite z => le; rewrite eq_le le andbT.
by apply: sumr_ge0 => s _; apply: sumr_ge0 => j _; apply: sumr_ge0 => k _; apply: sqr_ge0.
Qed.

Lemma row_at_ord p w (A : 'M[R]_(p, w)) (k : 'I_p) : row_at A k = row k A.
Proof. by rewrite /row_at valK. Qed.

Lemma inv_mass_evalE (m : model_fns R dx o) (c : 'M[R]_(mf m, dx)) xs :
  inv_mass_eval m (Some c) xs = Ok [seq Ef m s *m c | s <- xs].
Proof.
rewrite /inv_mass_eval eqxx /=; congr Ok; apply: eq_map => s; apply/rowP => k.
by rewrite !mxE; apply: eq_bigr => b _; rewrite row_at_ord mxE.
Qed.

Lemma inv_mass_eval_width (m : model_fns R dx o) q (c : 'M[R]_(q, dx)) xs :
  q <> mf m -> inv_mass_eval m (Some c) xs = Err ValueError.
Proof. by move=> ne; rewrite /inv_mass_eval; case: eqP. Qed.

Lemma inv_mass_00_fails (m : model_fns R dx o) q (c : option 'M[R]_(q, dx)) xs a :
  inv_mass_00 m c xs <> Ok a.
Proof. by rewrite /inv_mass_00; case: (inv_mass_eval _ _ _). Qed.

(** The gradient of a constant combination of the basis makes the matrix singular. *)
Lemma const_singular q (kb : smp -> 'M[R]_(q, dx)) trajs (u : 'rV[R]_q) :
  all_nonempty trajs -> u != 0 -> (forall s, u *m kb s = 0) ->
  compute_pos_effective_mass kb trajs = Err Singular.
Proof.
move=> ne u0 z.
have nG : kb_gram kb (flatten trajs) \in unitmx = false.
  apply/negP => uG; have : u *m kb_gram kb (flatten trajs) = 0.
    rewrite -kb_gramE -scalemxAr mulmx_sumr big1 ?scaler0 // => s _.
    by rewrite mulmxA z mul0mx.
  move/(congr1 (mulmx^~ (invmx (kb_gram kb (flatten trajs))))); rewrite mul0mx mulmxK //.
  by move=> E; rewrite E eqxx in u0.
rewrite /compute_pos_effective_mass [avg_loop (kdot kb) _](gram_kernel_pooled kb ne).
have -> : avg_loop (vvdot kb) trajs = Ok (kb_vv kb (flatten trajs)).
  case/all_nonemptyP: ne => n0 pos; rewrite /avg_loop; apply: loop_pooled => // t tl.
  by rewrite /vvdot pos.
by rewrite /= /solve_linear /finv nG.
Qed.

Lemma pos_gle_const_removed (b : basis_fns R dx) (c : 'M[R]_(nderiv b, dx)) xs :
  nderiv b <> nbasis b -> inv_mass_eval (Pos_gle o b) (Some c) xs = Err ValueError.
Proof. by move=> ne; apply: (inv_mass_eval_width (m := Pos_gle o b)). Qed.

End Proofs.

(** ** Position-only classes in one dimension *)
Section One.
Variables (R : realFieldType) (o N : nat).
Variables (val : 'rV[R]_1 -> 'rV[R]_N) (der : 'rV[R]_1 -> 'M[R]_(N, 1)).
Local Notation smp := (sample R 1 o).

(** Squared distance between [v^2] and the fitted function of the position. *)
Definition v2_error (c : 'cV[R]_N) (xs : seq smp) : R :=
  \sum_(s <- xs) (s_v s 0 0 ^+ 2 - (val (s_x s) *m c) 0 0) ^+ 2.

Lemma vv_error1 c xs : vv_error (expanded (o := o) val) c xs = v2_error c xs.
Proof.
apply: eq_bigr => s _; rewrite !big_ord1 expr2 mxE; congr ((_ - _) ^+ 2).
by apply: eq_bigr => b _; rewrite mxE.
Qed.

Lemma one_dim_lsq (m : model_fns R 1 o) trajs c xs :
  m = Pos_gle_overdamped o val der false \/ m = Pos_gle_overdamped o val der true \/ m = Pos_gle_hybrid o val der ->
  compute_pos_effective_mass (expanded (o := o) val) trajs = Ok c ->
  [/\ forall c', v2_error c (flatten trajs) <= v2_error c' (flatten trajs),
      forall c', v2_error c' (flatten trajs) = v2_error c (flatten trajs) -> c' = c
    & inv_mass_eval m (Some c) xs = Ok [seq val (s_x s) *m c | s <- xs]].
Proof.
move=> mE /pos_mass_lsq[opt uni]; split=> [c'|c'|].
- by rewrite -!vv_error1.
- by rewrite -!vv_error1; apply: uni.
by case: mE => [->|[->|->]]; apply: inv_mass_evalE.
Qed.

Lemma one_dim_recovers trajs c (c0 : 'cV[R]_N) :
  compute_pos_effective_mass (expanded (o := o) val) trajs = Ok c ->
  (forall s, List.In s (flatten trajs) -> s_v s 0 0 ^+ 2 = (val (s_x s) *m c0) 0 0) -> c = c0.
Proof.
move=> E H; apply: (pos_mass_recovers E) => s /H + j k.
rewrite !ord1 -expr2 => ->; rewrite mxE; apply: eq_bigr => b _.
by rewrite mxE.
Qed.
End One.

(** ** Two dimensions: one constant function, one sample with velocity (1, 0) *)
Section Two.
Variable R : realFieldType.
Definition e0 : 'rV[R]_2 := delta_mx 0 0.
Definition one_sample : seq (seq (sample R 2 2)) := [:: [:: (0, 0, e0, 0, 0)]].
Definition one_fct : 'rV[R]_2 -> 'rV[R]_1 := fun=> 1%:M.

Lemma two_dim_refuted :
  exists c a, compute_pos_effective_mass (expanded (o := 2) one_fct) one_sample = Ok c /\
  inv_mass_eval (Pos_gle_overdamped 2 one_fct (fun=> 0) false) (Some c) (flatten one_sample) = Ok [:: a] /\
  forall i, a <> row i (e0^T *m e0).
Proof.
have two0 : (2%:R : R) != 0 by rewrite pnatr_eq0.
have key : kb_gram (expanded (o := 2) one_fct) (flatten one_sample) = 2%:R%:M.
  apply/matrixP => i j; rewrite !ord1 !mxE eqxx big_cons big_nil invr1 mul1r addr0.
  by rewrite big_ord_recl big_ord1 !mxE !mulr1n mulr1.
pose c : 'M[R]_(1, 2) := 2%:R^-1 *: e0.
have E : compute_pos_effective_mass (expanded (o := 2) one_fct) one_sample = Ok c.
  apply/pos_mass_ok; split=> //; first by rewrite key unitmxE det_scalar1 unitfE.
  rewrite key mul_scalar_mx /c scalerA divff // scale1r /kb_vv /sample_mean.
  rewrite big_cons big_nil addr0 /= invr1 scale1r mulmxA.
  suff -> : expanded one_fct (0, 0, e0, 0, 0 : 'rV[R]_2) *m e0^T = 1%:M :> 'M_1 by rewrite mul1mx.
  apply/matrixP => i j; rewrite !ord1 !mxE big_ord_recl big_ord1 !mxE /= !mulr1n.
  by rewrite mulr1 mulr0 addr0.
exists c, c; split=> //; split.
  by rewrite inv_mass_evalE /=; congr (Ok [:: _]); rewrite mul1mx.
move=> i /matrixP/(_ 0 0)/eqP; rewrite /c !mxE /= mulr1 big_ord1 !mxE /= mulr1.
case: (i == 0); last by rewrite invr_eq0 (negbTE two0).
by rewrite invr_eq1 -subr_eq0 -(natrB _ (isT : (1 <= 2)%N)) oner_eq0.
Qed.

End Two.

(** ** The velocity classes fit with the gradients and evaluate with the values *)
Section PosGle.
Variable R : realFieldType.

(** One sample: position 2, velocity 1. *)
Definition at_two : seq (seq (sample R 1 1)) := [:: [:: (0, 2%:R%:M, 1%:M, 0, 0)]].
Definition id_basis : basis_fns R 1 :=
  {| nbasis := 1; nderiv := 1; const_removed := false; bval := id;
     bderiv := fun=> 1%:M; bhess := fun _ _ => 0 |}.

Lemma pos_gle_values_refuted :
  exists c (c0 : 'cV[R]_1),
    (forall s, List.In s (flatten at_two) -> s_v s 0 0 ^+ 2 = (s_x s *m c0) 0 0) /\
    compute_pos_effective_mass (Kb (Pos_gle 1 id_basis)) at_two = Ok c /\
    inv_mass_eval (Pos_gle 1 id_basis) (Some c) (flatten at_two)
    <> Ok [seq s_x s *m c0 | s <- flatten at_two].
Proof.
have two0 : (2%:R : R) != 0 by rewrite pnatr_eq0.
exists 1%:M, (2%:R^-1)%:M; split.
  by move=> s [<-|[]]; rewrite -scalar_mxM divff // !mxE /= expr1n.
split.
  have key : kb_gram (Kb (Pos_gle 1 id_basis)) (flatten at_two) = 1%:M.
    by rewrite -kb_gramE /sample_mean big_cons big_nil addr0 /= invr1 scale1r trmx1 mul1mx.
  apply/pos_mass_ok; split=> //; first by rewrite key unitmx1.
  by rewrite key mul1mx /kb_vv /sample_mean big_cons big_nil addr0 /= invr1 scale1r trmx1 !mul1mx.
rewrite inv_mass_evalE /= mulmx1 -scalar_mxM divff // => -[/matrixP/(_ 0 0)/eqP].
by rewrite !mxE /= mulr1n -subr_eq0 -(natrB _ (isT : (1 <= 2)%N)) oner_eq0.
Qed.

(** Two samples with [v^2 = x]. *)
Definition root_traj : seq (seq (sample R 1 1)) :=
  [:: [:: (0, 1%:M, 1%:M, 0, 0); (1, 4%:R%:M, 2%:R%:M, 0, 0)]].

Lemma root_traj_ok : compute_pos_effective_mass (expanded (o := 1) id) root_traj = Ok 1%:M.
Proof.
have [_ [|c Ec]] := pos_mass_success (expanded (o := 1) (id : 'rV[R]_1 -> 'rV[R]_1)) root_traj.
  split=> //; rewrite unitmxE det_mx11 unitfE mxE mulf_neq0 ?invr_eq0 ?pnatr_eq0 //.
  rewrite !big_cons big_nil !big_ord1 !mxE /= !mulr1n mulr1 addr0 -natrM -(natrD R 1).
  by rewrite pnatr_eq0.
rewrite Ec; congr Ok; apply: (one_dim_recovers Ec) => s [<-|[<-|[]]] /=; rewrite mulmx1 !mxE /= !mulr1n.
  by rewrite expr1n.
by rewrite expr2 -natrM.
Qed.
End PosGle.
