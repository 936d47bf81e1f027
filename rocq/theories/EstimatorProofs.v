From mathcomp Require Import all_ssreflect all_algebra.
From mathcomp Require Import zify.
From Verif Require Import Base Tactics FKernel Model Estimator EstimatorSpec FKernelProofs.
Set Implicit Arguments.
Unset Strict Implicit.
Unset Printing Implicit Defensive.
Import GRing.Theory Num.Theory Order.POrderTheory.
Local Open Scope ring_scope.

Section MapM.
Variables (A B : Type).

Lemma mapM_ok (f : A -> res B) (g : A -> B) (l : seq A) :
  (forall x, List.In x l -> f x = Ok (g x)) -> mapM f l = Ok (map g l).
Proof.
elim: l => [|x l IH] //= H; rewrite H; last by left.
by rewrite /= IH // => y yl; apply: H; right.
Qed.

Lemma mapM_err (f : A -> res B) (l : seq A) x e :
  List.In x l -> f x = Err e -> exists e', mapM f l = Err e'.
Proof.
elim: l => [|y l IH] //= [->|xl] E; first by rewrite E; exists e.
case: (f y) => [b|e']; last by exists e'.
by have [e' ->] := IH xl E; exists e'.
Qed.

Lemma mapM_inv (f : A -> res B) (l : seq A) r :
  mapM f l = Ok r -> forall x, List.In x l -> exists y, f x = Ok y.
Proof.
move=> E x xl; case F: (f x) => [y|e]; first by exists y.
by have [e' E'] := mapM_err xl F; rewrite E' in E.
Qed.

End MapM.

Section Avg.
Variables (R : realFieldType).

Lemma foldl_addT (V : zmodType) (v : V) vs :
  foldl (fun acc u => let! acc := acc in addT acc u) (Ok v) vs = Ok (v + \sum_(u <- vs) u).
Proof.
elim: vs v => [|u vs IH] v /=; first by rewrite big_nil addr0.
by rewrite IH big_cons addrA.
Qed.

Lemma combine_sum (V : lmodType R) (ws : seq nat) (arr : seq V) :
  (0 < size ws)%N -> (0 < size arr)%N ->
  combine (fun c (v : V) => c *: v) (@addT V) ws arr
  = Ok (\sum_(p <- zip ws arr) ((p.1)%:R / (sumn ws)%:R) *: p.2).
Proof.
case: ws => // w ws; case: arr => // a arr _ _; rewrite /combine /=.
by rewrite foldl_addT big_cons /= big_map.
Qed.

Variables (S : Type).

Lemma sumn_flatten (l : seq (seq S)) : sumn [seq size t | t <- l] = size (flatten l).
Proof. by rewrite size_flatten. Qed.

(** The weighted loop of per-trajectory means is the mean over all samples. *)
Lemma loop_pooled (V : lmodType R) (f : S -> V) (trajs : seq (seq S))
    (func : nat -> seq S -> res V) :
  (0 < size trajs)%N ->
  (forall t, List.In t trajs -> func (size t) t = Ok ((size t)%:R^-1 *: \sum_(s <- t) f s)) ->
  (forall t, List.In t trajs -> (0 < size t)%N) ->
  loop_over_trajs (fun c (v : V) => c *: v) (@addT V) size func trajs
  = Ok (sample_mean f (flatten trajs)).
Proof.
move=> n0 Hf pos; rewrite /loop_over_trajs.
rewrite (_ : mapM _ _ = Ok [seq (size t)%:R^-1 *: \sum_(s <- t) f s | t <- trajs]); last first.
  elim: trajs Hf {n0 pos} => [|t l IH] //= Hf; rewrite Hf /=; last by left.
  by rewrite IH // => u ul; apply: Hf; right.
rewrite /= combine_sum ?size_map //; congr Ok.
rewrite /sample_mean sumn_flatten; move: ((size (flatten trajs))%:R : R) => W.
rewrite zip_map big_map /= big_flatten /= scaler_sumr.
elim: trajs pos {n0 Hf} => [|t l IH] pos; first by rewrite !big_nil.
rewrite !big_cons; congr (_ + _); last by apply: IH => u ul; apply: pos; right.
rewrite scalerA mulrAC mulfV ?mul1r // pnatr_eq0 -lt0n; apply: pos; by left.
Qed.

End Avg.

Section Projection.
Variables (R : realFieldType) (dx o : nat).
Local Notation smp := (sample R dx o).
Implicit Types (trajs : seq (seq smp)).

Definition all_nonempty trajs := (0 < size trajs)%N && all (fun t => 0 < size t)%N trajs.

Lemma all_nonemptyP trajs : all_nonempty trajs ->
  (0 < size trajs)%N /\ forall t, List.In t trajs -> (0 < size t)%N.
Proof.
case/andP=> n0 /allP A; split=> // t tl; apply: A.
by elim: trajs tl {n0} => [|u l IH] //= [->|/IH]; rewrite inE ?eqxx // => ->; rewrite orbT.
Qed.

Lemma mean_productE p q (e : smp -> 'rV[R]_p) (f : smp -> 'rV[R]_q) xs :
  sample_mean (fun s => (e s)^T *m f s) xs = mean_product e f xs.
Proof.
apply/matrixP => i j; rewrite !mxE summxE; congr (_ * _); apply: eq_bigr => s _.
by rewrite !mxE big_ord1 !mxE.
Qed.

Lemma tdot_pooled p q (e : smp -> 'rV[R]_p) (f : smp -> 'rV[R]_q) trajs :
  all_nonempty trajs ->
  avg_loop (tdot e f) trajs = Ok (mean_product e f (flatten trajs)).
Proof.
case/all_nonemptyP=> n0 pos; rewrite /avg_loop -mean_productE; apply: loop_pooled => // t tl.
by rewrite /tdot pos.
Qed.

Lemma basis_mean_pooled p (e : smp -> 'rV[R]_p) trajs :
  all_nonempty trajs -> compute_basis_mean e trajs = Ok (sample_mean e (flatten trajs)).
Proof.
case/all_nonemptyP=> n0 pos; apply: loop_pooled => // t tl.
by rewrite pos.
Qed.

(** An empty list or an empty trajectory makes every average fail. *)
Lemma tdot_fails p q (e : smp -> 'rV[R]_p) (f : smp -> 'rV[R]_q) trajs :
  ~~ all_nonempty trajs -> exists x, avg_loop (tdot e f) trajs = Err x.
Proof.
rewrite negb_and -leqNgt leqn0 => /orP[|].
  by move/nilP=> ->; exists OutOfBounds.
rewrite -has_predC => /hasP[t tl /=]; rewrite -leqNgt leqn0 => /nilP t0.
rewrite /avg_loop /loop_over_trajs.
have [e' ->] : exists e', mapM (fun p => tdot e f p.1 p.2) (zip [seq size t | t <- trajs] trajs) = Err e'.
  apply: (@mapM_err _ _ _ _ (0%N, [::]) ZeroDivision) => //; rewrite -t0.
  elim: trajs tl => [|u l IH] //=; rewrite inE => /orP[/eqP<-|/IH]; last by right.
  by left; rewrite t0.
by exists e'.
Qed.

Lemma mean_force_ok (m : model_fns R dx o) trajs c G :
  compute_mean_force m trajs = Ok (c, G) <->
  [/\ all_nonempty trajs, G = mean_product (Ef m) (Ef m) (flatten trajs),
      G \in unitmx & G *m c = mean_product (Ef m) s_obs (flatten trajs)].
Proof.
rewrite /compute_mean_force.
case ne: (all_nonempty trajs); last first.
  by have [e ->] := tdot_fails (Ef m) s_obs (negbT ne); split=> [|[]].
rewrite !tdot_pooled //= /solve_linear.
set G' := mean_product (Ef m) (Ef m) _; set D := mean_product _ s_obs _.
rewrite /finv; case: ifP => uG /=; split.
- by move=> -[<- <-]; split=> //; rewrite mulmxA mulmxV // mul1mx.
- by case=> _ -> _ H; rewrite -H mulmxA mulVmx // mul1mx.
- by [].
- by case=> _ -> uG'; rewrite uG' in uG.
Qed.

Section LSQ.
Variables (S : Type) (p q : nat) (e : S -> 'rV[R]_p) (obs : S -> 'rV[R]_q) (xs : seq S).

Lemma normal_orthogonal c : (0 < size xs)%N ->
  (mean_product e e xs *m c = mean_product e obs xs <-> residual_orthogonal e obs c xs).
Proof.
move=> s0; have n0 : (size xs)%:R != 0 :> R by rewrite pnatr_eq0 -lt0n.
have key i l : (mean_product e e xs *m c) i l
   = (size xs)%:R^-1 * \sum_(s <- xs) e s 0 i * \sum_(j < p) e s 0 j * c j l.
  rewrite mxE (eq_bigr (fun j => (size xs)%:R^-1 * \sum_(s <- xs) e s 0 i * (e s 0 j * c j l))).
    rewrite -mulr_sumr exchange_big /=; congr (_ * _); apply: eq_bigr => s _.
    by rewrite mulr_sumr.
  move=> j _; rewrite mxE -mulrA mulr_suml; congr (_ * _); apply: eq_bigr => s _.
  by rewrite mulrA.
split=> [E i l|H]; last first.
  apply/matrixP => i l; rewrite key mxE; congr (_ * _).
  apply/eqP; rewrite -subr_eq0 -sumrB -oppr_eq0 -sumrN -[X in _ == X](H i l).
  by apply/eqP; apply: eq_bigr => s _; rewrite mulrBr opprB.
have := congr1 (fun A : 'M_(_, _) => A i l) E; rewrite key mxE => /(mulfI (invr_neq0 n0)) E'.
by under eq_bigr do rewrite mulrBr; rewrite sumrB E' subrr.
Qed.

Lemma lsq_pythagoras c c' :
  residual_orthogonal e obs c xs ->
  sq_residual e obs c' xs
  = sq_residual e obs c xs + \sum_(s <- xs) \sum_(l < q) (\sum_(j < p) e s 0 j * (c j l - c' j l)) ^+ 2.
Proof.
move=> orth; rewrite /sq_residual.
pose r s l := obs s 0 l - \sum_(j < p) e s 0 j * c j l.
pose d s l := \sum_(j < p) e s 0 j * (c j l - c' j l).
have -> : \sum_(s <- xs) \sum_(l < q) (obs s 0 l - \sum_(j < p) e s 0 j * c' j l) ^+ 2
        = \sum_(s <- xs) \sum_(l < q) (r s l + d s l) ^+ 2.
  apply: eq_bigr => s _; apply: eq_bigr => l _; congr (_ ^+ 2); rewrite /r /d.
  rewrite [X in _ = _ + X](eq_bigr (fun j => e s 0 j * c j l - e s 0 j * c' j l)); last by move=> j _; rewrite mulrBr.
  by rewrite sumrB addrA subrK.
rewrite -/(r) -big_split /=.
have cross : \sum_(s <- xs) \sum_(l < q) r s l * d s l = 0.
  rewrite (eq_bigr (fun s => \sum_(l < q) \sum_(j < p) (c j l - c' j l) * (e s 0 j * r s l))); last first.
    move=> s _; apply: eq_bigr => l _; rewrite /d mulr_sumr; apply: eq_bigr => j _.
    by rewrite [RHS]mulrC -[RHS]mulrA [RHS]mulrCA.
  rewrite exchange_big /= big1 // => l _; rewrite exchange_big /= big1 // => j _.
  by rewrite -mulr_sumr orth mulr0.
transitivity (\sum_(s <- xs) \sum_(l < q) (r s l ^+ 2 + d s l ^+ 2)
              + 2%:R * \sum_(s <- xs) \sum_(l < q) r s l * d s l).
  rewrite mulr_sumr -big_split /=; apply: eq_bigr => s _.
  rewrite mulr_sumr -big_split /=; apply: eq_bigr => l _.
  by rewrite sqrrD -mulr_natl addrAC.
by rewrite cross mulr0 addr0; apply: eq_bigr => s _; rewrite big_split.
Qed.

Lemma lsq_optimal c c' :
  residual_orthogonal e obs c xs -> sq_residual e obs c xs <= sq_residual e obs c' xs.
Proof.
move=> orth; rewrite (lsq_pythagoras c' orth) ler_addl.
by apply: sumr_ge0 => s _; apply: sumr_ge0 => l _; apply: sqr_ge0.
Qed.

(** The minimiser is unique when the Gram matrix is invertible. *)
Lemma lsq_unique c c' :
  (0 < size xs)%N -> mean_product e e xs \in unitmx ->
  residual_orthogonal e obs c xs -> sq_residual e obs c' xs = sq_residual e obs c xs -> c' = c.
Proof.
move=> s0 uG orth; rewrite (lsq_pythagoras c' orth) -{2}[sq_residual _ _ c _]addr0 => /addrI Z.
have z (s : S) l : List.In s xs -> \sum_(j < p) e s 0 j * (c j l - c' j l) = 0.
  move=> sx; apply/eqP; rewrite -sqrf_eq0; apply/eqP.
  have : \sum_(l < q) (\sum_(j < p) e s 0 j * (c j l - c' j l)) ^+ 2 = 0.
    elim: xs sx Z {s0 uG orth} => [|u us IH] //= sx.
    rewrite big_cons => /eqP; rewrite paddr_eq0; first last.
    - by apply: sumr_ge0 => ? _; apply: sumr_ge0 => ? _; apply: sqr_ge0.
    - by apply: sumr_ge0 => ? _; apply: sqr_ge0.
    case/andP=> /eqP E1 /eqP E2; case: sx => [<-//|sx]; exact: IH.
  move/eqP; rewrite psumr_eq0; last by move=> ? _; apply: sqr_ge0.
  by move/allP/(_ l); rewrite mem_index_enum => /(_ isT)/eqP.
have GZ : mean_product e e xs *m (c - c') = 0.
  apply/matrixP => i l; rewrite !mxE.
  rewrite (eq_bigr (fun j => (size xs)%:R^-1 * \sum_(s <- xs) e s 0 i * (e s 0 j * (c j l - c' j l)))); last first.
    move=> j _; rewrite !mxE -mulrA mulr_suml; congr (_ * _); apply: eq_bigr => s _.
    by rewrite mulrA.
  rewrite -mulr_sumr exchange_big /=.
  rewrite (_ : \sum_(s <- xs) _ = 0) ?mulr0 //.
  elim: xs z {s0 uG orth Z} => [|u us IH] z; first by rewrite big_nil.
  rewrite big_cons IH ?addr0; last by move=> s k sx; apply: z; right.
  by rewrite -mulr_sumr z ?mulr0 //; left.
have : c - c' = 0 by rewrite -[c - c']mul1mx -(mulVmx uG) -mulmxA GZ mulmx0.
by move/eqP; rewrite subr_eq0 => /eqP.
Qed.

End LSQ.
End Projection.
