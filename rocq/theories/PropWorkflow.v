(** * Properties C26, C27, C31: sequences of calls; saving and loading. *)
From mathcomp Require Import all_ssreflect all_algebra.
From mathcomp Require Import complex.
From Verif Require Import Base Model Estimator EstimatorSpec CorrsLoop Workflow WorkflowProofs WorkflowWitness CorrelationProofs PropCorrs.
Set Implicit Arguments.
Unset Strict Implicit.
Unset Printing Implicit Defensive.
Import GRing.Theory.
Local Open Scope ring_scope.

(** ** C26 *)

(** The documented exceptions, in every sequence of calls; the exception is
    [compute_kernel], which raises [AttributeError]. *)
Theorem C26_out_of_order_partial (R : rcfType) (w : nat -> R[i]) (dx o : nat) (m : model_fns R dx o)
    dt trunc_ind trajs (cs : seq (call m)) :
  let run := run_calls w dt trunc_ind trajs in
  let step := apply_call w dt trunc_ind trajs in
  let done := fun P => succeeded w dt trunc_ind trajs P (init m) cs in
  let s := run (init m) cs in
  [/\ ~ done (@sets_force _ _ _ m) ->
        [/\ forall rt so, step s (CallCorrs m rt so) = (s, Err Documented),
            forall xva tk st sp, step s (CallNoise m xva tk st sp) = (s, Err Documented)
          & forall xs, step s (CallForceEval m xs) = (s, Err Documented)],
      ~ done (@is_corrs _ _ _ m) ->
        forall mt k0, step s (CallKernel mt k0) = (s, Err AttributeError)
    & ~ done (@is_kernel _ _ _ m) ->
        step s (CallCheck m) = (s, Err Documented) /\
        forall xva tk st sp, exists e, step s (CallNoise m xva tk st sp) = (s, Err e)].
Proof. exact: out_of_order. Qed.
Print Assumptions C26_out_of_order_partial.

(** A failing call keeps the force, the kernel, the correlations and the mass; a failing
    kernel computation stores the method, unless correlations or samples are missing. *)
Theorem C26_failure_frame_partial (R : rcfType) (w : nat -> R[i]) (dx o : nat) (m : model_fns R dx o)
    dt trunc_ind trajs (s : state m) c s' e :
  apply_call w dt trunc_ind trajs s c = (s', Err e) ->
  [/\ [/\ st_force s' = st_force s, st_kernel s' = st_kernel s & st_corrs s' = st_corrs s],
      st_mass s' = st_mass s, st_gram_kernel s' = st_gram_kernel s,
      match c with
      | CallKernel mt _ => st_method s' = if (st_corrs s : bool) && (0 < trunc_ind)%N then Some mt else st_method s
      | _ => st_method s' = st_method s
      end
    & st_gram_force s' = st_gram_force s \/
      c = CallMeanForce m /\ exists2 g, compute_gram (Ef m) trajs = Ok g & st_gram_force s' = Some g].
Proof. exact: failure_frame. Qed.
Print Assumptions C26_failure_frame_partial.

(** Finding F12.  [compute_kernel] before [compute_corrs] does not raise the
    documented exception. *)
Theorem C26_wrong_exception_refuted (R : rcfType) (w : nat -> R[i]) (dx o : nat) (m : model_fns R dx o)
    dt trunc_ind trajs : exists (cs : seq (call m)) mt,
  ~ succeeded w dt trunc_ind trajs (@is_corrs _ _ _ m) (init m) cs /\
  exists s', apply_call w dt trunc_ind trajs (run_calls w dt trunc_ind trajs (init m) cs) (CallKernel mt None)
             = (s', Err AttributeError).
Proof.
exists [::], MTrapz; split; first by case=> -[|c1 cs1] [c2 [cs2 []]].
by exists (init m).
Qed.
Print Assumptions C26_wrong_exception_refuted.

(** Finding F13.  A failing [compute_kernel] changes the model: the noise, computable
    before the call, is rejected after it. *)
Theorem C26_failing_call_refuted (R : rcfType) (w : nat -> R[i]) : fft_roots w ->
  exists (cs : seq (call (wm R))) c s' e xva out,
    let s := run_calls w 1 2 [:: wtraj R] (init (wm R)) cs in
    let noise s := compute_noise (m := wm R) (Ek (wm R)) (st_force s) (omap snd (st_kernel s)) (st_method s)
                     2 xva None 0 None in
    [/\ apply_call w 1 2 [:: wtraj R] s c = (s', Err e), s' <> s,
        noise s = Ok out & noise s' = Err ValueError].
Proof. exact: failing_call_refuted. Qed.
Print Assumptions C26_failing_call_refuted.

(** ** C27 *)

(** Any history; then successful correlations, calls that do not touch the force, a
    successful kernel, and calls that do not touch the force. *)
Theorem C27_fresh_partial (R : rcfType) (w : nat -> R[i]) (dx o : nat) (m : model_fns R dx o)
    dt trunc_ind trajs (cs0 : seq (call m)) rt so cs1 mt k0 cs2 :
  let run := run_calls w dt trunc_ind trajs in
  let step := apply_call w dt trunc_ind trajs in
  let s0 := run (init m) cs0 in
  let s1 := (step s0 (CallCorrs m rt so)).1 in
  let s2 := run s1 cs1 in
  let s3 := (step s2 (CallKernel mt k0)).1 in
  (step s0 (CallCorrs m rt so)).2 = Ok tt ->
  (step s2 (CallKernel mt k0)).2 = Ok tt ->
  all (fun c => ~~ sets_force c) (cs1 ++ cs2) ->
  st_kernel (run s3 cs2) <> None /\
  forall k, st_kernel (run s3 cs2) = Some k ->
    exists rt so cd mt k0, compute_corrs w rt so trunc_ind (st_force (run s3 cs2)) trajs = Ok cd /\
      compute_kernel dt trunc_ind cd mt k0 = Ok k.
Proof. exact: pipeline_fresh. Qed.
Print Assumptions C27_fresh_partial.

(** Finding F14.  Recomputing the force leaves the kernel of the previous force in place. *)
Theorem C27_stale_refuted (R : rcfType) (w : nat -> R[i]) : fft_roots w ->
  exists cs : seq (call (wm R)),
    let run := run_calls w 1 2 [:: wtraj R] in
    (forall cs1 c cs2, cs = cs1 ++ c :: cs2 ->
       (apply_call w 1 2 [:: wtraj R] (run (init (wm R)) cs1) c).2 = Ok tt) /\
    ~ (forall k, st_kernel (run (init (wm R)) cs) = Some k ->
         exists rt so cd mt k0,
           compute_corrs w rt so 2 (st_force (run (init (wm R)) cs)) [:: wtraj R] = Ok cd /\
           compute_kernel 1 2 cd mt k0 = Ok k).
Proof. exact: stale_kernel_refuted. Qed.
Print Assumptions C27_stale_refuted.

(** The calls of the partial theorem succeed on the witness trajectory. *)
Example C27_example (R : rcfType) : let w := root_family R in
  let s0 := set_force (init (wm R)) (Some 0) in
  let s1 := (apply_call w 1 2 [:: wtraj R] s0 (CallCorrs (wm R) FftND true)).1 in
  (apply_call w 1 2 [:: wtraj R] s0 (CallCorrs (wm R) FftND true)).2 = Ok tt /\
  (apply_call w 1 2 [:: wtraj R] s1 (CallKernel (m := wm R) MRect None)).2 = Ok tt.
Proof.
move=> w s0 s1; have wP : fft_roots w by move=> k; apply: root_familyP; rewrite expn_gt0.
by have [_ E2 E3] := stale_run wP; rewrite /s1 /s0 E2 E3.
Qed.

(** ** C31 *)
Theorem C31_restored_partial (R : rcfType) (dx o : nat) (m : model_fns R dx o) (s : state m) :
  let r := save_load s in
  let noise s := compute_noise (m := m) (Ek m) (st_force s) (omap snd (st_kernel s)) (st_method s) in
  [/\ forall xs, force_eval (m := m) (st_force r) xs = force_eval (m := m) (st_force s) xs,
      st_kernel r = st_kernel s,
      st_force r = st_force s /\ st_gram_force r = st_gram_force s
    & match st_method s with None | Some MRect | Some MSecondRect => True | _ => False end ->
      forall tr xva tk start stop, noise r tr xva tk start stop = noise s tr xva tk start stop].
Proof. exact: save_load_same. Qed.
Print Assumptions C31_restored_partial.

Theorem C31_pmf_partial (R : rcfType) dx (m : model_fns R dx dx) (s : state m) :
  st_mass s = None -> forall E kT z, pmf_eval (save_load s) E kT z = pmf_eval s E kT z.
Proof. exact: save_load_pmf. Qed.
Print Assumptions C31_pmf_partial.

(** Finding F15.  The inversion method is not restored: a model rejected by
    [compute_noise] is accepted after a round trip (and treated as rectangular). *)
Theorem C31_noise_refuted (R : rcfType) (w : nat -> R[i]) : fft_roots w ->
  exists (cs : seq (call (wm R))) xva out,
    let run := run_calls w 1 2 [:: wtraj R] in
    let s := run (init (wm R)) cs in
    let noise s := compute_noise (m := wm R) (Ek (wm R)) (st_force s) (omap snd (st_kernel s)) (st_method s)
                     2 xva None 0 None in
    [/\ forall cs1 c cs2, cs = cs1 ++ c :: cs2 ->
          (apply_call w 1 2 [:: wtraj R] (run (init (wm R)) cs1) c).2 = Ok tt,
        noise s = Err ValueError & noise (save_load s) = Ok out].
Proof. exact: save_load_noise_refuted. Qed.
Print Assumptions C31_noise_refuted.

(** Finding F16.  The effective mass is not restored: the free energy changes. *)
Theorem C31_pmf_refuted (R : rcfType) (w : nat -> R[i]) :
  exists (cs : seq (call (wm R))) E kT v v',
    let run := run_calls w 1 2 [:: wtraj R] in
    let s := run (init (wm R)) cs in
    [/\ forall cs1 c cs2, cs = cs1 ++ c :: cs2 ->
          (apply_call w 1 2 [:: wtraj R] (run (init (wm R)) cs1) c).2 = Ok tt,
        pmf_eval s E kT true = Ok v, pmf_eval (save_load s) E kT true = Ok v' & v <> v'].
Proof. exact: save_load_pmf_refuted. Qed.
Print Assumptions C31_pmf_refuted.
