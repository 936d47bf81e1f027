(** * The estimator with range projection switched on, as a state machine:
    gle_estimation.py:191-288, 290-348, models.py:95-169.

    The result of [np.linalg.svd] on the lag-zero correlations is an argument of the call
    (see /RangeProj.v/); [k0] is left to its default; [saveall=False].  Widths of the stored
    arrays may change from call to call.  Arrays of different widths are refused by the
    compiled routines ([ValueError]). *)
From mathcomp Require Import all_ssreflect all_algebra.
From mathcomp Require Import complex.
From Verif Require Import Base Model Estimator CorrsLoop RangeProj.
Set Implicit Arguments.
Unset Strict Implicit.
Unset Printing Implicit Defensive.
Import GRing.Theory Num.Theory.
Local Open Scope ring_scope.

Section Projected.
Variables (R : rcfType) (w : nat -> R[i]) (dx o : nat) (m : model_fns R dx o).
Local Notation smp := (sample R dx o).

Record pstate := PState {
  ps_force : option 'M[R]_(mf m, o);
  ps_gram_kernel : option 'M[R]_(mq m);
  ps_proj : option (projection R (mk m));
  ps_method : option volterra_method;
  ps_kernel : option {r : nat & (seq R * seq 'M[R]_(r, o))%type};
  ps_corrs : option {r : nat & corrs_data R r o} }.

Definition pinit : pstate := PState None None None None None None.

Inductive pcall :=
  | PMeanForce
  | PZeroForce
  | PGramKernel
  | PCorrs of corr_routine & bool & option R & 'M[R]_(mk m) & 'rV[R]_(mk m)
  | PKernel of volterra_method
  | PNoise of seq smp & option nat & nat & option nat.

Variables (dt eps : R) (trunc_ind : nat) (trajs : seq (seq smp)).

Definition put_force s f := PState f (ps_gram_kernel s) (ps_proj s) (ps_method s) (ps_kernel s) (ps_corrs s).
Definition put_gram s g := PState (ps_force s) g (ps_proj s) (ps_method s) (ps_kernel s) (ps_corrs s).
Definition put_proj s p := PState (ps_force s) (ps_gram_kernel s) p (ps_method s) (ps_kernel s) (ps_corrs s).
Definition put_method s v := PState (ps_force s) (ps_gram_kernel s) (ps_proj s) v (ps_kernel s) (ps_corrs s).
Definition put_kernel s k := PState (ps_force s) (ps_gram_kernel s) (ps_proj s) (ps_method s) k (ps_corrs s).
Definition put_corrs s c := PState (ps_force s) (ps_gram_kernel s) (ps_proj s) (ps_method s) (ps_kernel s) c.

(** Lines 206-215: the average is stored, then [self.gram_kernel] is read, an attribute the
    estimator does not have. *)
Definition p_gram_kernel (s : pstate) : pstate * res unit :=
  match compute_gram_kernel (Kb m) trajs with
  | Ok g => (put_gram s (Some g), Err AttributeError)
  | Err e => (s, Err e)
  end.

(** Lines 254-288: the unprojected correlations are stored first. *)
Definition p_corrs (s : pstate) rt so tol U sv : pstate * res unit :=
  match compute_corrs w rt so trunc_ind (ps_force s) trajs with
  | Err e => (s, Err e)
  | Ok c =>
      let s := put_corrs s (Some (existT _ (mk m) c)) in
      match (let! _ := rd (bkbk c) 0 in set_range_projection dx (rank_tolerance tol eps sv) U sv) with
      | Err e => (s, Err e)
      | Ok p => (put_corrs (put_proj s (Some p)) (Some (existT _ (p_rank p) (project_corrs (p_mat p) c))), Ok tt)
      end
  end.

(** Lines 290-348 *)
Definition p_kernel (s : pstate) mt : pstate * res unit :=
  if ps_corrs s is Some (existT r c) then
    if trunc_ind is 0 then (s, Err OutOfBounds) else
    let s := put_method s (Some mt) in
    match compute_kernel dt trunc_ind c mt None with
    | Ok k => (put_kernel s (Some (existT _ r k)), Ok tt)
    | Err e => (s, Err e)
    end
  else (s, Err AttributeError).

(** The same samples seen with another width. *)
Definition at_width r q (k : seq 'M[R]_(r, o)) : option (seq 'M[R]_(q, o)) :=
  if @eqP _ r q is ReflectT e then Some (ecast q (seq 'M[R]_(q, o)) e k) else None.

(** models.py:138-169; the times are read before the projection is applied. *)
Definition p_noise (s : pstate) (xva : seq smp) tk start stop : res (noise_out R o) :=
  let! _ := guard (ps_force s : bool) Documented in
  let! _ := rd xva 0 in
  let window := drop start (if stop is Some e then take e xva else xva) in
  let! _ := rd window 1 in
  if ps_proj s is Some p then
    let E s := Ek m s *m (p_mat p)^T in
    if ps_kernel s is Some (existT r k) then
      if at_width (p_rank p) k.2 is Some k then
        compute_noise (m := m) E (ps_force s) (Some k) (ps_method s) trunc_ind xva tk start stop
      else Err ValueError
    else if ps_method s is Some (MMidpoint | MRichardson | MOther) then Err ValueError else Err TypeError
  else Err TypeError.

Definition papply (s : pstate) (c : pcall) : pstate * res unit :=
  match c with
  | PMeanForce =>
      match (let! d := avg_loop (tdot (Ef m) s_obs) trajs in
             let! g := avg_loop (tdot (Ef m) (Ef m)) trajs in solve_linear g d) with
      | Ok f => (put_force s (Some f), Ok tt)
      | Err e => (s, Err e)
      end
  | PZeroForce => (put_force s (Some 0), Ok tt)
  | PGramKernel => p_gram_kernel s
  | PCorrs rt so tol U sv => p_corrs s rt so tol U sv
  | PKernel mt => p_kernel s mt
  | PNoise xva tk start stop => (s, let! _ := p_noise s xva tk start stop in Ok tt)
  end.

Definition prun (s : pstate) (cs : seq pcall) : pstate := foldl (fun s c => (papply s c).1) s cs.

End Projected.
