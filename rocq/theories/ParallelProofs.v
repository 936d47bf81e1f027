From mathcomp Require Import all_ssreflect all_algebra.
From mathcomp Require Import zify.
From Verif Require Import Base Estimator Parallel EstimatorProofs.
Set Implicit Arguments.
Unset Strict Implicit.
Unset Printing Implicit Defensive.

Section Pool.
Variables (V : Type) (n_jobs : nat) (task : nat -> res V) (n : nat).
Local Notation step := (step n_jobs task n).
Local Notation steps := (steps n_jobs task n).
Implicit Types p q : pool V.

Definition pool_inv p : Prop :=
  [/\ uniq (running p), next p <= n,
      forall i, i \in running p -> i < next p
    & forall i, slots p i = if (i < next p) && (i \notin running p) then Some (task i) else None].

Lemma pool_inv0 : pool_inv (pool0 V).
Proof. by split. Qed.

Lemma pool_inv_step p q : pool_inv p -> step p q -> pool_inv q.
Proof.
move=> [un le lt sl] st; case: st un le lt sl => {}p.
- move=> ltn _ un le lt sl; split=> //=.
  + by rewrite un andbT; apply/negP => /lt; rewrite ltnn.
  + by move=> i; rewrite inE => /orP[/eqP->|/lt/ltnW].
  + move=> i; rewrite sl inE negb_or.
    case: (eqVneq i (next p)) => [->|ne]; rewrite /= ?ltnn ?andbF //.
    by congr (if _ && _ then _ else _); lia.
- move=> i ir un le lt sl; split=> //=.
  + by rewrite rem_uniq.
  + by move=> j /mem_rem; apply: lt.
  + move=> j; rewrite sl rem_filter // mem_filter /=.
    by case: eqP => [->|ne] /=; rewrite ?(lt _ ir).
Qed.

Lemma pool_inv_steps p q : pool_inv p -> steps p q -> pool_inv q.
Proof. by move=> I st; elim: st I => // {}p q' r _ IH s I; apply: pool_inv_step s; apply: IH. Qed.

Lemma terminal_slots p :
  steps (pool0 V) p -> terminal n p -> forall i, i < n -> slots p i = Some (task i).
Proof.
move=> st [np rp] i li; have [_ _ _ ->] := pool_inv_steps pool_inv0 st.
by rewrite rp np li.
Qed.

Lemma mapM_ext A B (f g : A -> res B) l : (forall x, List.In x l -> f x = g x) -> mapM f l = mapM g l.
Proof.
elim: l => [|x l IH] //= H; rewrite H; last by left.
by case: (g x) => //= y; rewrite IH // => z zl; apply: H; right.
Qed.

Lemma In_iota i a k : List.In i (iota a k) -> a <= i < a + k.
Proof. by elim: k a => [|k IH] a //= [->|/IH]; lia. Qed.

Lemma collect_serial p :
  steps (pool0 V) p -> terminal n p -> collect n p = mapM task (iota 0 n).
Proof.
by move=> st tm; apply: mapM_ext => i /In_iota /andP[_ li]; rewrite (terminal_slots st tm).
Qed.

(** No deadlock, bounded length. *)
Lemma pool_progress p :
  0 < n_jobs -> steps (pool0 V) p -> terminal n p \/ exists q, step p q.
Proof.
move=> j0 st; have [_ le _ _] := pool_inv_steps pool_inv0 st.
case: p st le => nx [|i r] sl st /= le; last by right; eexists; apply: (@Finish _ _ _ _ _ i); rewrite /= inE eqxx.
case: (ltnP nx n) => lt; first by right; eexists; apply: Dispatch.
by left; split=> //=; apply/eqP; rewrite eqn_leq le.
Qed.

(** No more than [n_jobs] tasks at the same time, each of them once; a free worker
    takes the next task. *)
Lemma steps_width p q : size (running p) <= n_jobs -> steps p q -> size (running q) <= n_jobs.
Proof.
move=> + st; elim: st => // {}p q' r _ IH s /IH {IH}.
case: s => {r}q'' => [_ lt //|i ir] /= le.
by rewrite size_rem //; apply: leq_trans le; exact: leq_pred.
Qed.

Lemma pool_width p :
  steps (pool0 V) p ->
  [/\ uniq (running p), size (running p) <= n_jobs
    & size (running p) < n_jobs -> next p < n ->
      exists2 q, step p q & running q = next p :: running p].
Proof.
move=> st; split; first by have [] := pool_inv_steps pool_inv0 st.
  exact: steps_width st.
by move=> lt ln; eexists; first exact: Dispatch.
Qed.

Fixpoint run (k : nat) p q : Prop :=
  if k is k'.+1 then exists2 r, step p r & run k' r q else p = q.

Definition pool_measure p := (2 * (n - next p) + size (running p)).

Lemma step_measure p q : step p q -> pool_measure q < pool_measure p.
Proof.
case=> {}p => [lt _|i ir]; rewrite /pool_measure /=; first lia.
by rewrite size_rem //; case: (running p) ir => //= ? ? _; lia.
Qed.

Lemma run_bounded k p q : run k p q -> k + pool_measure q <= pool_measure p.
Proof.
elim: k p => [|k IH] p /=; first by move=> ->.
by case=> r /step_measure lt /IH; lia.
Qed.

Lemma run_bounded0 k q : run k (pool0 V) q -> k <= 2 * n.
Proof. by move/run_bounded; rewrite /pool_measure /=; lia. Qed.

End Pool.

Section Loop.
Variables (R : realFieldType) (traj V : Type).
Variables (scale : R -> V -> V) (add : V -> V -> res V).

Lemma traj_task_map (len : traj -> nat) func trajs :
  mapM (traj_task len func trajs) (iota 0 (size trajs))
  = mapM (fun p => func p.1 p.2) (zip [seq len t | t <- trajs] trajs) :> res (seq V).
Proof.
suff H m k : size (drop k trajs) = m -> mapM (traj_task len func trajs) (iota k m)
   = mapM (fun p => func p.1 p.2) (zip [seq len t | t <- drop k trajs] (drop k trajs)).
  by have := H (size trajs) 0; rewrite drop0; apply.
elim: m k => [|m IH] k E; first by move/size0nil: E => ->.
rewrite /= {1}/traj_task; case D: (drop k trajs) E => [|t l] //= [E].
have D' : drop k.+1 trajs = l by rewrite -addn1 addnC -drop_drop D /= drop0.
have := IH k.+1; rewrite D' => /(_ E) H.
by case: (func (len t) t) => //= v; rewrite -H.
Qed.

Lemma parallel_serial (len : traj -> nat) (func : nat -> traj -> res V) trajs n_jobs p :
  steps n_jobs (traj_task len func trajs) (size trajs) (pool0 V) p ->
  terminal (size trajs) p ->
  loop_over_trajs_parallel scale add len trajs (size trajs) p
  = loop_over_trajs scale add len func trajs.
Proof.
move=> st tm; rewrite /loop_over_trajs_parallel (collect_serial st tm) traj_task_map.
by [].
Qed.

End Loop.
