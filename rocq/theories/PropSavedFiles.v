(** * C74: files written by estimators. *)
From Coq Require Import String.
From mathcomp Require Import all_ssreflect all_algebra.
From mathcomp Require Import complex.
From Verif Require Import Base Model Estimator CorrsLoop Workflow WorkflowProofs WorkflowWitness CorrelationProofs PropCorrelation SavedFiles SavedFilesProofs.
Set Implicit Arguments.
Unset Strict Implicit.
Unset Printing Implicit Defensive.
Import GRing.Theory Num.Theory.
Local Open Scope ring_scope.

(** What the estimators hold after any calls does not depend on [saveall], [prefix] or what
    is on the disk. *)
Theorem C74_memory_partial (R : rcfType) (w : nat -> R[i]) (dx o : nat) (m : model_fns R dx o)
    (es es' : seq (est m)) d d' ps :
  [seq memory e | e <- es] = [seq memory e | e <- es'] ->
  [seq memory e | e <- (run w (es, d) ps).1] = [seq memory e | e <- (run w (es', d') ps).1].
Proof. exact: run_memory. Qed.
Print Assumptions C74_memory_partial.

(** Any number of estimators of which only number [i] saves: after any calls, failing or
    not, the kernel file is the kernel held by [i], and the correlation file the correlations
    held by [i] on the grid of its time step, unless correlations without the second-order
    ones were asked from [i]; nothing else is written. *)
Theorem C74_one_saver_partial (R : rcfType) (w : nat -> R[i]) (dx o : nat) (m : model_fns R dx o)
    i (es : seq (est m)) ps e :
  (forall j e, est_at es j = Some e -> e_saveall e = (j == i)) ->
  (forall e, est_at es i = Some e -> e_state e = init m) ->
  let wd := run w (es, fun=> None) ps in
  est_at wd.1 i = Some e ->
  [/\ wd.2 "kernel.nc"%string = omap (fun k => KernelFile k.1 k.2) (st_kernel (e_state e)),
      ~~ has (first_order_call i) ps ->
        wd.2 "corrs.nc"%string
        = omap (fun cd => CorrsFile (mkseq (fun n => n%:R * e_dt e) (size (bkbk cd))) cd) (st_corrs (e_state e))
    & forall f, f <> "kernel.nc"%string -> f <> "corrs.nc"%string -> wd.2 f = None].
Proof. by move=> S I; exact: (@saved_files R w dx o m i es ps S I e). Qed.
Print Assumptions C74_one_saver_partial.

(** Correlations without the second-order ones can be computed but not saved: the call of a
    saving estimator always fails, and when the correlations exist they are stored in the
    estimator while the disk keeps the previous file (finding F75). *)
Theorem C74_first_order_refuted (R : rcfType) (w : nat -> R[i]) (dx o : nat) (m : model_fns R dx o)
    (e : est m) d rt :
  e_saveall e ->
  (exists x, (est_call w e d (CallCorrs m rt false)).2 = Err x) /\
  forall cd, compute_corrs (m := m) w rt false (e_trunc e) (st_force (e_state e)) (e_trajs e) = Ok cd ->
    let: (e', d', r) := est_call w e d (CallCorrs m rt false) in
    [/\ r = Err ValueError, st_corrs (e_state e') = Some cd & d' = d].
Proof.
move=> sv; rewrite /est_call /= sv.
case E: (compute_corrs _ _ _ _ _ _) => [cd|x] /=; last by split=> //; eexists.
have := corrs_second_order E; rewrite /save_corrs; case: (dotbkbk cd) => // _.
by split=> [|cd' [<-]]; first by eexists.
Qed.
Print Assumptions C74_first_order_refuted.

Fixpoint succeeding (R : rcfType) (w : nat -> R[i]) (dx o : nat) (m : model_fns R dx o) (wd : world m) ps : Prop :=
  if ps is p :: ps' then (step w wd p).2 = Ok tt /\ succeeding w (step w wd p).1 ps' else True.

(** The workflow of WorkflowWitness.v up to the kernel, for two estimators. *)
Definition wcalls (R : rcfType) (i : nat) (mt : volterra_method) : seq (nat * call (wm R)) :=
  [:: (i, CallZeroForce (wm R)); (i, CallCorrs (wm R) FftND true); (i, CallKernel (m := wm R) mt None)].
Definition west (R : rcfType) (p : string) : est (wm R) := Est p true 1 2 [:: wtraj R] (init (wm R)).

Section Steps.
Variables (R : rcfType) (w : nat -> R[i]).
Hypothesis wP : fft_roots w.
Local Notation est := (est (wm R)).
Local Notation zs := (set_force (init (wm R)) (Some 0)).
Local Notation cs := (set_corrs zs (Some (wcorrs true 0))).
Definition wks (k : seq R * seq 'M[R]_1) mt : state (wm R) := set_kernel (set_method cs (Some mt)) (Some k).

Lemma wstep0 (a b : est) d c a' d' r : est_call w a d c = (a', d', r) ->
  step w ([:: a; b], d) (0%N, c) = (([:: a'; b], d'), r).
Proof.
move=> H; have -> : step w ([:: a; b], d) (0%N, c)
    = let: (e', d', r) := est_call w a d c in ((set_nth e' [:: a; b] 0 e', d'), r) by [].
by rewrite H.
Qed.
Lemma wstep1 (a b : est) d c b' d' r : est_call w b d c = (b', d', r) ->
  step w ([:: a; b], d) (1%N, c) = (([:: a; b'], d'), r).
Proof.
move=> H; have -> : step w ([:: a; b], d) (1%N, c)
    = let: (e', d', r) := est_call w b d c in ((set_nth e' [:: a; b] 1 e', d'), r) by [].
by rewrite H.
Qed.

Lemma wcall_zero p d : est_call w (west R p) d (CallZeroForce (wm R)) = (set_state (west R p) zs, d, Ok tt).
Proof. by []. Qed.

Definition wcf : content (wm R) := CorrsFile (m := wm R) (mkseq (fun i => i%:R * 1) 2) (wcorrs true 0).

Lemma wcall_corrs p d : est_call w (set_state (west R p) zs) d (CallCorrs (wm R) FftND true)
  = (set_state (west R p) cs, write d "corrs.nc" wcf, Ok tt).
Proof. by have [_ E _] := stale_run wP; rewrite /est_call E. Qed.

Lemma wcall_kernel p d k mt :
  apply_call w (m := wm R) 1 2 [:: wtraj R] cs (CallKernel (m := wm R) mt None) = (wks k mt, Ok tt) ->
  est_call w (set_state (west R p) cs) d (CallKernel (m := wm R) mt None)
  = (set_state (west R p) (wks k mt), write d "kernel.nc" (KernelFile (m := wm R) k.1 k.2), Ok tt).
Proof. by move=> E; rewrite /est_call E. Qed.

Definition wk0 : seq R * seq 'M[R]_1 := ([:: 0; 1], wK R).
Definition wk1 : seq R * seq 'M[R]_1 := ([:: 0], [:: - (2^-1)%:M]).

Lemma wk_call0 : apply_call w (m := wm R) 1 2 [:: wtraj R] cs (CallKernel (m := wm R) MRect None) = (wks wk0 MRect, Ok tt).
Proof. by have [_ _ ->] := stale_run wP. Qed.
Lemma wk_call1 : apply_call w (m := wm R) 1 2 [:: wtraj R] cs (CallKernel (m := wm R) MMidpoint None) = (wks wk1 MMidpoint, Ok tt).
Proof. by rewrite mid_step. Qed.

Lemma wsteps_run (wd : world (wm R)) p ps wd' : step w wd p = (wd', Ok tt) ->
  run w wd (p :: ps) = run w wd' ps /\ (succeeding w wd' ps -> succeeding w wd (p :: ps)).
Proof. by move=> E; rewrite /run /= E. Qed.

Lemma two_run p q : let d := (fun=> None) : disk (wm R) in
  let wd := ([:: west R p; west R q], d) in let cl := wcalls R 0 MRect ++ wcalls R 1 MMidpoint in
  succeeding w wd cl /\
  run w wd cl = ([:: set_state (west R p) (wks wk0 MRect); set_state (west R q) (wks wk1 MMidpoint)],
    write (write (write (write d "corrs.nc" wcf) "kernel.nc" (KernelFile (m := wm R) wk0.1 wk0.2)) "corrs.nc" wcf)
          "kernel.nc" (KernelFile (m := wm R) wk1.1 wk1.2)).
Proof.
move=> d wd cl; rewrite /cl /wcalls !cat_cons cat0s /wd.
pose d3 := write (write d "corrs.nc" wcf) "kernel.nc" (KernelFile (m := wm R) wk0.1 wk0.2).
pose a := set_state (west R p) (wks wk0 MRect).
have s1 := wstep0 (west R q) (wcall_zero p d).
have s2 := wstep0 (west R q) (wcall_corrs p d).
have s3 := wstep0 (west R q) (wcall_kernel p (write d "corrs.nc" wcf) wk_call0).
have s4 := wstep1 a (wcall_zero q d3).
have s5 := wstep1 a (wcall_corrs q d3).
have s6 := wstep1 a (wcall_kernel q (write d3 "corrs.nc" wcf) wk_call1).
split.
  apply: (proj2 (wsteps_run _ s1)); apply: (proj2 (wsteps_run _ s2)); apply: (proj2 (wsteps_run _ s3)).
  by apply: (proj2 (wsteps_run _ s4)); apply: (proj2 (wsteps_run _ s5)); apply: (proj2 (wsteps_run _ s6)).
rewrite (proj1 (wsteps_run _ s1)) (proj1 (wsteps_run _ s2)) (proj1 (wsteps_run _ s3)).
by rewrite (proj1 (wsteps_run _ s4)) (proj1 (wsteps_run _ s5)) (proj1 (wsteps_run _ s6)).
Qed.

End Steps.

(** Two estimators with different prefixes, all calls succeed: there is one kernel file, and
    it is not the kernel of the first (finding F76). *)
Theorem C74_prefix_refuted (R : rcfType) (w : nat -> R[i]) :
  fft_roots w ->
  exists (m : model_fns R 1 1) (e0 e1 : est m) ps e0' e1' d k0 k1,
    [/\ e_prefix e0 <> e_prefix e1 /\ (e_saveall e0 && e_saveall e1),
        succeeding w ([:: e0; e1], fun=> None) ps,
        run w ([:: e0; e1], fun=> None) ps = ([:: e0'; e1'], d),
        st_kernel (e_state e0') = Some k0 /\ st_kernel (e_state e1') = Some k1
      & [/\ d "kernel.nc"%string = Some (KernelFile k1.1 k1.2), k0 <> k1
          & forall f, d f <> Some (KernelFile k0.1 k0.2)]].
Proof.
move=> wP; have [S E] := two_run wP "first" "second".
exists (wm R), (west R "first"), (west R "second"), (wcalls R 0 MRect ++ wcalls R 1 MMidpoint).
do 2!eexists; eexists; exists (wk0 R), (wk1 R); split; [| exact: S | exact: E | by [] |].
  by split=> // h; discriminate h.
split; first by rewrite write_same.
  by case.
move=> f; case: (String.eqb_spec "kernel.nc" f) => [<-|nk]; first by rewrite write_same; case.
rewrite (write_other _ _ nk).
case: (String.eqb_spec "corrs.nc" f) => [<-|nc]; first by rewrite write_same.
by rewrite (write_other _ _ nc) (write_other _ _ nk) (write_other _ _ nc).
Qed.
Print Assumptions C74_prefix_refuted.

(** One saver among two estimators, with the files after its calls. *)
Example C74_example (R : rcfType) (w : nat -> R[i]) : fft_roots w ->
  let quiet := Est "b" false 1 2 [:: wtraj R] (init (wm R)) in
  let d := (run w ([:: west R "a"; quiet], fun=> None) (wcalls R 0 MRect)).2 in
  d "kernel.nc"%string = Some (KernelFile (m := wm R) [:: 0; 1] (wK R)) /\ d "corrs.nc"%string = Some (wcf R).
Proof.
move=> wP quiet d; rewrite /d /wcalls.
rewrite (proj1 (wsteps_run _ (wstep0 quiet (wcall_zero w "a" (fun=> None))))).
rewrite (proj1 (wsteps_run _ (wstep0 quiet (wcall_corrs wP "a" (fun=> None))))).
rewrite (proj1 (wsteps_run _ (wstep0 quiet (wcall_kernel "a" _ (wk_call0 wP))))).
by split; [exact: write_same | apply: etrans (write_same _ _ _); apply: write_other].
Qed.
