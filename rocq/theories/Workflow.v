(** * The estimator object as a state machine: what each public call of
    [Estimator_gle] / [ModelBase] reads and writes, and saving and loading a model.

    Simplifications: [rank_projection] is off (models whose basis has its constant
    removed, overdamped and position-only models), [saveall=False] (nothing written to
    disk), and [set_zero_force] uses the width of the force basis. *)
From mathcomp Require Import all_ssreflect all_algebra.
From mathcomp Require Import complex.
From Verif Require Import Base Model Estimator CorrsLoop.
Set Implicit Arguments.
Unset Strict Implicit.
Unset Printing Implicit Defensive.
Import GRing.Theory Num.Theory.
Local Open Scope ring_scope.

Section Workflow.
Variables (R : rcfType) (w : nat -> R[i]) (dx o : nat) (m : model_fns R dx o).
Local Notation smp := (sample R dx o).

(** Mutable attributes of the model (force, gram matrices, mass, method, kernel) and
    of the estimator (correlations).  [st_corrs = None]: the attributes [bkbkcorrw],
    ... do not exist yet (gle_estimation.py never initialises them). *)
Record state := State {
  st_force : option 'M[R]_(mf m, o);
  st_gram_force : option 'M[R]_(mf m);
  st_gram_kernel : option 'M[R]_(mq m);
  st_mass : option 'M[R]_dx;
  st_method : option volterra_method;
  st_kernel : option (seq R * seq 'M[R]_(mk m, o));
  st_corrs : option (corrs_data R (mk m) o) }.

(** models.py:58-76 *)
Definition init : state := State None None None None None None None.

Inductive call :=
  | CallMeanForce
  | CallZeroForce
  | CallGramForce
  | CallGramKernel
  | CallMass
  | CallCorrs of corr_routine & bool
  | CallKernel of volterra_method & option 'M[R]_(mk m, o)
  | CallCheck
  | CallNoise of seq smp & option nat & nat & option nat
  | CallForceEval of seq smp.

Variables (dt : R) (trunc_ind : nat) (trajs : seq (seq smp)).

Definition set_force s f := State f (st_gram_force s) (st_gram_kernel s) (st_mass s) (st_method s) (st_kernel s) (st_corrs s).
Definition set_gram_force s g := State (st_force s) g (st_gram_kernel s) (st_mass s) (st_method s) (st_kernel s) (st_corrs s).
Definition set_gram_kernel s g := State (st_force s) (st_gram_force s) g (st_mass s) (st_method s) (st_kernel s) (st_corrs s).
Definition set_mass s v := State (st_force s) (st_gram_force s) (st_gram_kernel s) v (st_method s) (st_kernel s) (st_corrs s).
Definition set_method s v := State (st_force s) (st_gram_force s) (st_gram_kernel s) (st_mass s) v (st_kernel s) (st_corrs s).
Definition set_kernel s v := State (st_force s) (st_gram_force s) (st_gram_kernel s) (st_mass s) (st_method s) v (st_corrs s).
Definition set_corrs s v := State (st_force s) (st_gram_force s) (st_gram_kernel s) (st_mass s) (st_method s) (st_kernel s) v.

Definition finish (A : Type) (s : state) (r : res A) (upd : A -> state) : state * res unit :=
  match r with Ok a => (upd a, Ok tt) | Err e => (s, Err e) end.

(** gle_estimation.py:240-249: the Gram matrix is stored before the system is solved. *)
Definition call_mean_force (s : state) : state * res unit :=
  let avg := (let! d := avg_loop (tdot (Ef m) s_obs) trajs in
              let! g := avg_loop (tdot (Ef m) (Ef m)) trajs in Ok (d, g)) in
  match avg with
  | Err e => (s, Err e)
  | Ok (d, g) =>
      let s := set_gram_force s (Some g) in
      finish s (solve_linear g d) (fun c => set_force s (Some c))
  end.

(** gle_estimation.py:290-348: the method is stored before anything can fail except the
    access to the correlations and [time[0]]. *)
Definition call_kernel (s : state) mt k0 : state * res unit :=
  if st_corrs s is Some c then
    if trunc_ind is 0 then (s, Err OutOfBounds) else
    let s := set_method s (Some mt) in
    finish s (compute_kernel dt trunc_ind c mt k0) (fun k => set_kernel s (Some k))
  else (s, Err AttributeError).

Definition apply_call (s : state) (c : call) : state * res unit :=
  match c with
  | CallMeanForce => call_mean_force s
  | CallZeroForce => (set_force s (Some 0), Ok tt)
  | CallGramForce => finish s (compute_gram (Ef m) trajs) (fun g => set_gram_force s (Some g))
  | CallGramKernel => finish s (compute_gram_kernel (Kb m) trajs) (fun g => set_gram_kernel s (Some g))
  | CallMass => finish s (compute_effective_mass trajs) (fun v => set_mass s (Some v))
  | CallCorrs rt so =>
      finish s (compute_corrs w rt so trunc_ind (st_force s) trajs) (fun c => set_corrs s (Some c))
  | CallKernel mt k0 => call_kernel s mt k0
  | CallCheck =>
      (* gle_estimation.py:350-371 *)
      if st_kernel s is Some k then
        if st_corrs s is Some c then finish s (check_volterra_inversion dt c k.2) (fun=> s)
        else (s, Err AttributeError)
      else (s, Err Documented)
  | CallNoise xva tk start stop =>
      finish s (compute_noise (m := m) (Ek m) (st_force s) (omap snd (st_kernel s)) (st_method s)
                trunc_ind xva tk start stop) (fun=> s)
  | CallForceEval xs => finish s (force_eval (m := m) (st_force s) xs) (fun=> s)
  end.

(** A sequence of calls; a caller may catch exceptions and go on. *)
Definition run_calls (s : state) (cs : seq call) : state :=
  foldl (fun s c => (apply_call s c).1) s cs.

(** ** Saving and loading (models.py:365-402) *)

(** What [load_model] restores; everything else is reset by the constructor.  The
    estimator's correlations are not part of a model. *)
Definition save_load (s : state) : state :=
  State (st_force s) (st_gram_force s) None None None (st_kernel s) None.

(** models.py:224-246.  [E] is the "pmf" basis (antiderivative) at the evaluation
    points; [kT] given; [np.min] runs over all entries. *)
Definition min_entries (rows : seq 'rV[R]_dx) : res R :=
  match flatten [seq [seq (r : 'rV[R]_dx) 0 j | j <- enum 'I_dx] | r <- rows] with
  | [::] => Err ValueError
  | x :: l => Ok (foldl Num.min x l)
  end.

End Workflow.

Section Pmf.
Variables (R : rcfType) (dx : nat) (m : model_fns R dx dx).

Definition pmf_eval (s : state m) (E : seq 'rV[R]_(mf m)) (kT : R) (set_zero : bool) : res (seq 'rV[R]_dx) :=
  if st_force s is Some c then
    let mass := if st_mass s is Some M then M else 1%:M in
    let pmf := [seq kT^-1 *: (- (e *m c) *m mass) | e <- E] in
    let! x := min_entries pmf in
    Ok [seq p - const_mx (set_zero%:R * x) | p <- pmf]
  else Err Documented.

End Pmf.
