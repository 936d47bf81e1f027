(** * Files written by estimators: gle_estimation.py:50-58, 286-288, 345-348.

    Any number of estimators of one model class in one working directory, each with its own
    data, [saveall] and [prefix]; calls as in Workflow.v.  The disk accepts every file that
    xarray can build.  As in Workflow.v there is no projection on the range of the basis. *)
From Coq Require Import String.
From mathcomp Require Import all_ssreflect all_algebra.
From mathcomp Require Import complex.
From Verif Require Import Base Model Estimator CorrsLoop Workflow.
Set Implicit Arguments.
Unset Strict Implicit.
Unset Printing Implicit Defensive.
Import GRing.Theory.
Local Open Scope ring_scope.

Section SavedFiles.
Variables (R : rcfType) (w : nat -> R[i]) (dx o : nat) (m : model_fns R dx o).
Local Notation smp := (sample R dx o).

Inductive content :=
  | CorrsFile of seq R & corrs_data R (mk m) o
  | KernelFile of seq R & seq 'M[R]_(mk m, o).
Definition disk := string -> option content.

Definition write (d : disk) (f : string) (c : content) : disk :=
  fun g => if String.eqb f g then Some c else d g.

Record est := Est {
  e_prefix : string; e_saveall : bool;
  e_dt : R; e_trunc : nat; e_trajs : seq (seq smp);
  e_state : state m }.

(** Lines 57-58 *)
Definition corrsfile (e : est) : string := "corrs.nc".
Definition kernelfile (e : est) : string := "kernel.nc".

Definition set_state (e : est) s := Est (e_prefix e) (e_saveall e) (e_dt e) (e_trunc e) (e_trajs e) s.

(** Lines 286-287.  Without the second-order correlations the fourth array is a bare
    [numpy] array, which [xr.Dataset] refuses. *)
Definition save_corrs (e : est) (d : disk) (cd : corrs_data R (mk m) o) : disk * res unit :=
  if dotbkbk cd is Some _ then
    (write d (corrsfile e) (CorrsFile (mkseq (fun i => i%:R * e_dt e) (size (bkbk cd))) cd), Ok tt)
  else (d, Err ValueError).

(** Lines 346-347 *)
Definition save_kernel (e : est) (d : disk) (k : seq R * seq 'M[R]_(mk m, o)) : disk * res unit :=
  (write d (kernelfile e) (KernelFile k.1 k.2), Ok tt).

(** One call: the attributes are set first, the file is written last. *)
Definition est_call (e : est) (d : disk) (c : call m) : est * disk * res unit :=
  let: (s, r) := apply_call w (e_dt e) (e_trunc e) (e_trajs e) (e_state e) c in
  let e' := set_state e s in
  match r with
  | Err x => (e', d, Err x)
  | Ok _ =>
      if e_saveall e then
        match c with
        | CallCorrs _ _ => if st_corrs s is Some cd then (let: (d1, r1) := save_corrs e d cd in (e', d1, r1)) else (e', d, Ok tt)
        | CallKernel _ _ => if st_kernel s is Some k then (let: (d1, r1) := save_kernel e d k in (e', d1, r1)) else (e', d, Ok tt)
        | _ => (e', d, Ok tt)
        end
      else (e', d, Ok tt)
  end.

Definition world := (seq est * disk)%type.

(** Call [p.2] of estimator number [p.1]. *)
Definition step (wd : world) (p : nat * call m) : world * res unit :=
  if nth None [seq Some e | e <- wd.1] p.1 is Some e then
    let: (e', d', r) := est_call e wd.2 p.2 in
    ((set_nth e' wd.1 p.1 e', d'), r)
  else (wd, Err OutOfBounds).

Definition run (wd : world) (ps : seq (nat * call m)) : world := foldl (fun wd p => (step wd p).1) wd ps.

End SavedFiles.
