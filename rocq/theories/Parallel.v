(** * Model of gle_estimation.py:178-189 ([_loop_over_trajs_parallel]): [joblib.Parallel]
    with [n_jobs] workers.

    Tasks are dispatched in submission order to free workers, finish in any order,
    and the result of task [i] is stored in slot [i].  Tasks are pure functions of
    their arguments (no shared mutable state: each receives its own trajectory). *)
From mathcomp Require Import all_ssreflect all_algebra.
From Verif Require Import Base Estimator.
Set Implicit Arguments.
Unset Strict Implicit.
Unset Printing Implicit Defensive.

Section Parallel.
Variables (V : Type) (n_jobs : nat) (task : nat -> res V) (n : nat).

Record pool := Pool {
  next : nat;                       (* number of dispatched tasks *)
  running : seq nat;                (* tasks being executed *)
  slots : nat -> option (res V) }.  (* collected results *)

Definition pool0 : pool := Pool 0 [::] (fun=> None).

Inductive step : pool -> pool -> Prop :=
  | Dispatch p : next p < n -> size (running p) < n_jobs ->
      step p (Pool (next p).+1 (next p :: running p) (slots p))
  | Finish p i : i \in running p ->
      step p (Pool (next p) (rem i (running p))
                   (fun j => if j == i then Some (task i) else slots p j)).

Inductive steps : pool -> pool -> Prop :=
  | Done p : steps p p
  | Step p q r : steps p q -> step q r -> steps p r.

(** [Parallel(...)(...)] returns when every task is dispatched and none runs. *)
Definition terminal (p : pool) : Prop := next p = n /\ running p = [::].

(** The returned list, or the failure of some task (joblib re-raises one). *)
Definition collect (p : pool) : res (seq V) :=
  mapM (fun i => if slots p i is Some r then r else Err OutOfBounds) (iota 0 n).

End Parallel.

Section ParallelLoop.
Variables (R : realFieldType) (traj V : Type).
Variables (scale : R -> V -> V) (add : V -> V -> res V).

(** The parallel loop, for the final pool state of an execution. *)
Definition loop_over_trajs_parallel (len : traj -> nat) (trajs : seq traj) n (p : pool V) : res V :=
  let! arr := collect n p in
  combine scale add [seq len t | t <- trajs] arr.

Definition traj_task (len : traj -> nat) (func : nat -> traj -> res V) (trajs : seq traj) (i : nat) : res V :=
  if drop i trajs is t :: _ then func (len t) t else Err OutOfBounds.

End ParallelLoop.
