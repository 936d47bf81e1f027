(** * [compute_corrs] computes the pooled correlations; orthogonality at lag zero. *)
From mathcomp Require Import all_ssreflect all_algebra.
From mathcomp Require Import complex zify.
From Verif Require Import Base Tactics Model Estimator EstimatorSpec Correlation CorrelationSpec CorrsLoop.
From Verif Require Import CorrelationProofs EstimatorProofs EstimatorProofs2 EstimatorProofs3.
Set Implicit Arguments.
Unset Strict Implicit.
Unset Printing Implicit Defensive.
Import Order.TTheory GRing.Theory Num.Theory.
Local Open Scope ring_scope.

Section Corrs.
Variables (R : rcfType) (w : nat -> R[i]) (dx o : nat).
Hypothesis wP : forall k, (2 ^ k.+1)%N.-primitive_root (w (2 ^ k.+1)%N).
Local Notation smp := (sample R dx o).

Lemma vectorized_ok f p q T (a : 'M[R]_(p, T)) (b : 'M[R]_(q, T)) trunc :
  (forall i j, f (row_seq a i) (Some (row_seq b j)) (Some trunc)
     = Ok (mkseq (corr_estimate T (nth 0 (row_seq a i)) (nth 0 (row_seq b j))) (len_trunc T (Some trunc)))) ->
  vectorized f a b trunc = Ok (mkseq (corr_matrix a b) (len_trunc T (Some trunc))).
Proof.
move=> H; rewrite /vectorized.
rewrite (mapM_ok (g := fun ij : 'I_p * 'I_q => mkseq (corr_estimate T (nth 0 (row_seq a ij.1)) (nth 0 (row_seq b ij.2))) (len_trunc T (Some trunc)))) /=; last by move=> ij _; apply: H.
congr Ok; apply: (@eq_from_nth _ 0); rewrite !size_mkseq // => l lL.
rewrite [LHS]nth_mkseq // [RHS]nth_mkseq //; apply/matrixP => i j.
by rewrite !mxE H nth_mkseq // corr_estimate_rows.
Qed.

Lemma correlate_ok rt p q T (a : 'M[R]_(p, T)) (b : 'M[R]_(q, T)) trunc :
  (0 < T)%N -> (0 < trunc)%N ->
  correlate w rt a b trunc = Ok (mkseq (corr_matrix a b) (minn T trunc)).
Proof.
move=> T0 t0; have L0 : (0 < len_trunc T (Some trunc))%N by rewrite /= leq_min T0.
have sr n (c : 'M[R]_(n, T)) i : size (row_seq c i) = T by rewrite size_mkseq.
case: rt => /=.
- exact: correlation_NDE.
- apply: vectorized_ok => i j; have := @correlation_1DE _ w wP (row_seq a i) (row_seq b j) (Some trunc).
  by rewrite !sr; apply.
- exact: direct_NDE.
- apply: vectorized_ok => i j; have := @direct_1DE _ (row_seq a i) (row_seq b j) (Some trunc).
  by rewrite !sr; apply.
Qed.

Lemma at_time_array p (f : smp -> 'rV[R]_p) xva i t :
  at_time (time_array f xva) i t = nth 0 [seq f s 0 i | s <- xva] t.
Proof.
rewrite /at_time; case: insubP => [u _ <-|]; last first.
  by rewrite -leqNgt => lt; rewrite nth_default ?size_map.
rewrite mxE (tnth_nth (tnth (in_tuple xva) u)) /= (nth_map (tnth (in_tuple xva) u)) //.
Qed.

Lemma corr_matrix_traj p q (e : smp -> 'rV[R]_p) (f : smp -> 'rV[R]_q) xva n :
  corr_matrix (time_array e xva) (time_array f xva) n = traj_corr e f xva n.
Proof.
apply/matrixP => i j; rewrite !mxE; congr (_ * _); apply: eq_bigr => t _.
by rewrite !at_time_array.
Qed.

Lemma correlate_traj rt p q (e : smp -> 'rV[R]_p) (f : smp -> 'rV[R]_q) xva trunc :
  (0 < size xva)%N -> (0 < trunc)%N -> (trunc <= size xva)%N ->
  correlate w rt (time_array e xva) (time_array f xva) trunc = Ok (mkseq (traj_corr e f xva) trunc).
Proof.
move=> s0 t0 ts; rewrite correlate_ok // (minn_idPr ts); congr Ok.
by apply: eq_mkseq => n; rewrite corr_matrix_traj.
Qed.

(** Lag zero of the pooled correlation is the pooled mean product. *)
Lemma pooled_corr0 p q (e : smp -> 'rV[R]_p) (f : smp -> 'rV[R]_q) trajs :
  (forall t, List.In t trajs -> (0 < size t)%N) ->
  pooled_corr e f trajs 0 = mean_product e f (flatten trajs).
Proof.
move=> pos; apply/matrixP => i j; rewrite mxE summxE.
have -> : \sum_(s <- flatten trajs) e s 0 i * f s 0 j
        = \sum_(t <- trajs) \sum_(s <- t) e s 0 i * f s 0 j.
  by rewrite big_flatten.
rewrite mulr_sumr; move: ((size (flatten trajs))%:R : R) => W.
elim: trajs pos => [|t l IH] pos; first by rewrite !big_nil.
rewrite !big_cons IH; last by move=> u ul; apply: pos; right.
congr (_ + _); rewrite !mxE /corr_estimate subn0 mulrA.
have n0 : (size t)%:R != 0 :> R by rewrite pnatr_eq0 -lt0n; apply: pos; left.
rewrite [_ / W]mulrC mulfK //; congr (_ * _).
case: t {n0 pos} => [|s0 t]; first by rewrite big_ord0 big_nil.
rewrite (big_nth s0) big_mkord; apply: eq_bigr => k _.
by rewrite addn0 !(nth_map s0).
Qed.

Section Loop.
Variable m : model_fns R dx o.

Lemma corrs_ufunc_ok rt so trunc (c : 'M[R]_(mf m, o)) xva :
  (0 < trunc)%N -> (trunc <= size xva)%N ->
  correlation_ufunc w rt so trunc c (size xva) xva
  = Ok (Corrs (mkseq (traj_corr (Ek m) (Ek m) xva) trunc)
              (mkseq (traj_corr (Ek m) (ortho c) xva) trunc)
              (if so then mkseq (traj_corr (dEk m) (ortho c) xva) trunc
               else [:: sample_mean (fun s => (dEk m s)^T *m ortho c s) xva])
              (if so then Some (mkseq (traj_corr (dEk m) (Ek m) xva) trunc) else None)).
Proof.
move=> t0 ts; have s0 : (0 < size xva)%N by lia.
rewrite /correlation_ufunc !correlate_traj //=.
by case: so; rewrite ?correlate_traj //= /tdot s0.
Qed.

Lemma scaleseq_mkseq (V : lmodType R) a (f : nat -> V) n :
  scaleseq a (mkseq f n) = mkseq (fun i => a *: f i) n.
Proof. by rewrite /scaleseq /mkseq -map_comp. Qed.

Lemma addseq_mkseq (V : zmodType) (f g : nat -> V) n :
  addseq (mkseq f n) (mkseq g n) = Ok (mkseq (fun i => f i + g i) n).
Proof.
rewrite /addseq !size_mkseq eqxx; congr Ok.
apply: (@eq_from_nth _ 0); rewrite !size_mkseq // => i li.
by rewrite [LHS]nth_mkseq // [RHS]nth_mkseq // nth_mkseq // nth_mkseq.
Qed.

(** The corrs record made of four lag functions. *)
Definition corrs_of k (so : bool) (trunc : nat) (bb : nat -> 'M[R]_k) (bd db : nat -> 'M[R]_(k, o))
    (dd : nat -> 'M[R]_k) : corrs_data R k o :=
  Corrs (mkseq bb trunc) (mkseq bd trunc) (mkseq db (if so then trunc else 1%N))
        (if so then Some (mkseq dd trunc) else None).

Lemma add_corrs_of k so trunc (bb bb' : nat -> 'M[R]_k) (bd bd' db db' : nat -> 'M[R]_(k, o)) dd dd' :
  add_corrs (corrs_of so trunc bb bd db dd) (corrs_of so trunc bb' bd' db' dd')
  = Ok (corrs_of so trunc (fun n => bb n + bb' n) (fun n => bd n + bd' n) (fun n => db n + db' n)
        (fun n => dd n + dd' n)).
Proof. by rewrite /add_corrs /= !addseq_mkseq /=; case: so => //=; rewrite addseq_mkseq. Qed.

Lemma scale_corrs_of k so trunc a (bb : nat -> 'M[R]_k) (bd db : nat -> 'M[R]_(k, o)) dd :
  scale_corrs a (corrs_of so trunc bb bd db dd)
  = corrs_of so trunc (fun n => a *: bb n) (fun n => a *: bd n) (fun n => a *: db n) (fun n => a *: dd n).
Proof. by rewrite /scale_corrs /corrs_of /= !scaleseq_mkseq; case: so => //=; rewrite scaleseq_mkseq. Qed.

Lemma eq_corrs_of k so trunc (bb bb' : nat -> 'M[R]_k) (bd bd' db db' : nat -> 'M[R]_(k, o)) dd dd' :
  bb =1 bb' -> bd =1 bd' -> db =1 db' -> dd =1 dd' ->
  corrs_of so trunc bb bd db dd = corrs_of so trunc bb' bd' db' dd'.
Proof.
move=> H1 H2 H3 H4; rewrite /corrs_of (eq_mkseq H1) (eq_mkseq H2) (eq_mkseq H3).
by case: so; rewrite ?(eq_mkseq H4).
Qed.

Lemma traj_corr0 p q (e : smp -> 'rV[R]_p) (f : smp -> 'rV[R]_q) xva :
  sample_mean (fun s => (e s)^T *m f s) xva = traj_corr e f xva 0.
Proof.
rewrite mean_productE; apply/matrixP => i j; rewrite !mxE /corr_estimate subn0; congr (_ * _).
case: xva => [|s0 xs]; first by rewrite big_ord0 big_nil.
by rewrite (big_nth s0) big_mkord; apply: eq_bigr => k _; rewrite addn0 !(nth_map s0).
Qed.

Lemma compute_corrs_ok rt so trunc (c : 'M[R]_(mf m, o)) trajs :
  (0 < trunc)%N -> (0 < size trajs)%N ->
  (forall t, List.In t trajs -> (trunc <= size t)%N) ->
  compute_corrs w rt so trunc (Some c) trajs
  = Ok (corrs_of so trunc (pooled_corr (Ek m) (Ek m) trajs) (pooled_corr (Ek m) (ortho c) trajs)
          (pooled_corr (dEk m) (ortho c) trajs) (pooled_corr (dEk m) (Ek m) trajs)).
Proof.
move=> t0 n0 ts; rewrite /compute_corrs /loop_over_trajs.
pose g (t : seq smp) := corrs_of so trunc (traj_corr (Ek m) (Ek m) t) (traj_corr (Ek m) (ortho c) t)
    (traj_corr (dEk m) (ortho c) t) (traj_corr (dEk m) (Ek m) t).
rewrite (_ : mapM _ _ = Ok [seq g t | t <- trajs]) /=; last first.
  elim: trajs ts {n0} => [|t l IH] ts //=.
  rewrite corrs_ufunc_ok //; last by apply: ts; left.
  rewrite /= IH; last by move=> u ul; apply: ts; right.
  by rewrite /g /corrs_of traj_corr0 {g IH}; case: so.
rewrite /combine sumn_flatten; move: n0; rewrite /pooled_corr.
move: ((size (flatten trajs))%:R : R) => W.
case: trajs ts => [|t trajs] // _ _ /=.
pose h (t : seq smp) (f : seq smp -> nat -> 'M[R]_(mk m)) := fun n => ((size t)%:R / W) *: f t n.
have key l (bb : nat -> 'M[R]_(mk m)) bd db dd :
  foldl (fun acc u => let! acc := acc in add_corrs acc u) (Ok (corrs_of so trunc bb bd db dd))
    [seq scale_corrs (p.1%:R / W) p.2 | p <- zip [seq size t | t <- l] [seq g t | t <- l]]
  = Ok (corrs_of so trunc
      (fun n => bb n + \sum_(t <- l) ((size t)%:R / W) *: traj_corr (Ek m) (Ek m) t n)
      (fun n => bd n + \sum_(t <- l) ((size t)%:R / W) *: traj_corr (Ek m) (ortho c) t n)
      (fun n => db n + \sum_(t <- l) ((size t)%:R / W) *: traj_corr (dEk m) (ortho c) t n)
      (fun n => dd n + \sum_(t <- l) ((size t)%:R / W) *: traj_corr (dEk m) (Ek m) t n)).
  elim: l bb bd db dd => [|u l IH] bb bd db dd /=.
    by congr Ok; apply: eq_corrs_of => n; rewrite big_nil addr0.
  rewrite {1}/g scale_corrs_of add_corrs_of IH; congr Ok.
  by apply: eq_corrs_of => n; rewrite big_cons addrA.
rewrite {1}/g scale_corrs_of key; congr Ok.
by apply: eq_corrs_of => n; rewrite big_cons.
Qed.

(** Orthogonality at lag zero when the kernel basis is a linear function of the force
    basis. *)
Lemma bkdx_lag0 rt so trunc c G S trajs :
  compute_mean_force m trajs = Ok (c, G) ->
  (forall s, Ek m s = Ef m s *m S) ->
  (0 < trunc)%N -> (forall t, List.In t trajs -> (trunc <= size t)%N) ->
  exists2 cd, compute_corrs w rt so trunc (Some c) trajs = Ok cd &
    [/\ size (bkbk cd) = trunc, size (bkdx cd) = trunc & (bkdx cd)`_0 = 0].
Proof.
move=> Ef_ok HS t0 ts.
have [[ne EG uG Ec] [orth _ _]] := ((mean_force_ok _ _ _).1 Ef_ok, mean_force_lsq Ef_ok).
have [n0 pos] := all_nonemptyP ne.
eexists; first exact: compute_corrs_ok.
split; rewrite ?size_mkseq //= nth_mkseq // pooled_corr0 //.
apply/matrixP => i j; rewrite !mxE.
rewrite (eq_bigr (fun s => \sum_(k < mf m) S k i * (Ef m s 0 k * (s_obs s 0 j - \sum_(l < mf m) Ef m s 0 l * c l j)))).
  rewrite exchange_big big1 ?mulr0 // => k _.
  by rewrite -mulr_sumr orth mulr0.
move=> s _; rewrite HS mxE mulr_suml; apply: eq_bigr => k _.
by rewrite /ortho !mxE mulrA [S k i * _]mulrC.
Qed.

End Loop.
End Corrs.
