(** * Trajectories shared by estimators: gle_estimation.py:152-163 ([to_gfpe]) and the computations
    reading the observable.

    Datasets are objects: an estimator holds references to the datasets given to its constructor
    (gle_estimation.py:105-117), and [Dataset.update] changes the object.  [heap] maps a reference to
    the variables of the dataset.  Values of variables, bases and results are abstract: [dEf] is the
    third result of [basis_vector] (models.py:446-458), computed from the variables named by [reads];
    [cols] is [shape[-1]]; [fit] is the mean force (gle_estimation.py:240-249), computed from the same
    variables and the observable of every trajectory.  Simplifications: every estimator has its own
    model object, and the result of [mean_force] is kept by the estimator. *)
From Coq Require Import String.
From mathcomp Require Import all_ssreflect.
From Verif Require Import Base.
Set Implicit Arguments.
Unset Strict Implicit.
Unset Printing Implicit Defensive.
Local Open Scope string_scope.

Section Shared.
Variables (V B F : Type).
(** The variables read by the basis vectors of a model: x, v and, for some classes, a. *)
Variable reads : B -> seq string.
Variable dEf : B -> seq V -> V.
Variable cols : V -> nat.
Variable fit : B -> seq (seq V * V) -> res F.

Definition dataset := string -> option V.
Definition heap := nat -> dataset.

Definition get (d : dataset) (name : string) : res V := if d name is Some v then Ok v else Err KeyError.

(** [Dataset.update] *)
Definition update (h : heap) (r : nat) (name : string) (v : V) : heap :=
  fun r' name' => if (r' == r) && String.eqb name' name then Some v else h r' name'.

Record estimator := Est {
  e_trajs : seq nat; e_basis : B; e_rank : bool; e_L_obs : string; e_dim_obs : nat; e_force : option F }.

Definition put_rank (e : estimator) b := Est (e_trajs e) (e_basis e) b (e_L_obs e) (e_dim_obs e) (e_force e).
Definition put_obs (e : estimator) n d := Est (e_trajs e) (e_basis e) (e_rank e) n d (e_force e).
Definition put_force (e : estimator) f := Est (e_trajs e) (e_basis e) (e_rank e) (e_L_obs e) (e_dim_obs e) f.

(** [model.basis_vector(xva)], third result. *)
Definition basis_dE (b : B) (d : dataset) : res V :=
  let! vs := mapM (get d) (reads b) in Ok (dEf b vs).

(** The loop of [to_gfpe], lines 159-161; the last [dE] is the variable left by the loop. *)
Fixpoint gfpe_loop (h : heap) (rs : seq nat) (b : B) (name : string) (last : option V) : heap * res (option V) :=
  if rs is r :: rs' then
    match basis_dE b (h r) with
    | Ok v => gfpe_loop (update h r name v) rs' b name (Some v)
    | Err x => (h, Err x)
    end
  else (h, Ok last).

Definition to_gfpe (h : heap) (e : estimator) (model : option B) (name : string) : heap * estimator * res unit :=
  let b := if model is Some b then b else e_basis e in
  let e := put_rank e false in
  match gfpe_loop h (e_trajs e) b name None with
  | (h, Ok (Some v)) => (h, put_obs e name (cols v), Ok tt)
  | (h, Ok None) => (h, e, Err UnboundLocalError)
  | (h, Err x) => (h, e, Err x)
  end.

(** compute_mean_force: the force is stored when the computation succeeds. *)
Definition mean_force (h : heap) (e : estimator) : estimator * res unit :=
  match mapM (fun r => let! vs := mapM (get (h r)) (reads (e_basis e)) in
                       let! o := get (h r) (e_L_obs e) in Ok (vs, o)) (e_trajs e) with
  | Ok l => match fit (e_basis e) l with
            | Ok f => (put_force e (Some f), Ok tt)
            | Err x => (e, Err x)
            end
  | Err x => (e, Err x)
  end.

Inductive call := ToGfpe of option B & string | MeanForce.

Definition est_call (h : heap) (e : estimator) (c : call) : heap * estimator * res unit :=
  match c with
  | ToGfpe model name => to_gfpe h e model name
  | MeanForce => let: (e', r) := mean_force h e in (h, e', r)
  end.

(** Several estimators on one heap; each call goes to one of them. *)
Definition state := (heap * (nat -> estimator))%type.
Definition put (es : nat -> estimator) i e := fun j => if j == i then e else es j.

Fixpoint run (s : state) (calls : seq (nat * call)) : state * seq (nat * res unit) :=
  if calls is (i, c) :: calls' then
    let: (h, e, r) := est_call s.1 (s.2 i) c in
    let: (s', rs) := run (h, put s.2 i e) calls' in
    (s', (i, r) :: rs)
  else (s, [::]).

End Shared.
