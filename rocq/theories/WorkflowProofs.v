(** * Sequences of calls on the estimator; saving and loading. *)
From mathcomp Require Import all_ssreflect all_algebra.
From mathcomp Require Import complex zify.
From Verif Require Import Base Tactics FKernel Model Estimator EstimatorSpec Quadrature FKernelSpec CorrelationSpec CorrsLoop Workflow.
From Verif Require Import VolterraMain EstimatorProofs EstimatorProofs2 EstimatorProofs3 CorrsProofs CorrelationProofs.
Set Implicit Arguments.
Unset Strict Implicit.
Unset Printing Implicit Defensive.
Import Order.TTheory GRing.Theory Num.Theory.
Local Open Scope ring_scope.

Section Calls.
Variables (R : rcfType) (w : nat -> R[i]) (dx o : nat) (m : model_fns R dx o).
Local Notation smp := (sample R dx o).
Variables (dt : R) (trunc_ind : nat) (trajs : seq (seq smp)).
Local Notation apply_call := (@apply_call R w dx o m dt trunc_ind trajs).
Local Notation run_calls := (@run_calls R w dx o m dt trunc_ind trajs).
Implicit Types (s : state m) (c : call m) (cs : seq (call m)).

Definition sets_force c := match c with CallMeanForce | CallZeroForce => true | _ => false end.
Definition is_corrs c := if c is CallCorrs _ _ then true else false.
Definition is_kernel c := if c is CallKernel _ _ then true else false.

(** Some call of the given kind succeeded during the run. *)
Definition succeeded (P : call m -> bool) s cs : Prop :=
  exists cs1 c cs2, [/\ cs = cs1 ++ c :: cs2, P c & (apply_call (run_calls s cs1) c).2 = Ok tt].

(** What a failing call leaves untouched. *)
Lemma failure_frame s c s' e : apply_call s c = (s', Err e) ->
  [/\ [/\ st_force s' = st_force s, st_kernel s' = st_kernel s & st_corrs s' = st_corrs s],
      st_mass s' = st_mass s, st_gram_kernel s' = st_gram_kernel s,
      match c with
      | CallKernel mt _ => st_method s' = if (st_corrs s : bool) && (0 < trunc_ind)%N then Some mt else st_method s
      | _ => st_method s' = st_method s
      end
    & st_gram_force s' = st_gram_force s \/
      c = CallMeanForce m /\ exists2 g, compute_gram (Ef m) trajs = Ok g & st_gram_force s' = Some g].
Proof.
case: c => [|||||rt so|mt k0||xva tk st sp|xs] /=; rewrite ?/call_mean_force ?/call_kernel.
- case E: (bind _ _) => [[d g]|e'] //=; last by case=> <- _; split=> //; left.
  rewrite /finish; case: (solve_linear _ _) => [c|e'] // -[<- _]; split=> //; right; split=> //.
  by exists g => //; move: E; case: (avg_loop _ _) => [d'|] //=; rewrite /compute_gram; case: (avg_loop _ _) => [g'|] //= [_ ->].
- by [].
- by rewrite /finish; case: (compute_gram _ _) => [g|e'] // -[<- _]; split=> //; left.
- by rewrite /finish; case: (compute_gram_kernel _ _) => [g|e'] // -[<- _]; split=> //; left.
- by rewrite /finish; case: (compute_effective_mass _) => [g|e'] // -[<- _]; split=> //; left.
- by rewrite /finish; case: (compute_corrs _ _ _ _ _ _) => [g|e'] // -[<- _]; split=> //; left.
- case C: (st_corrs s) => [cd|] /=; last by case=> <- _; rewrite ?C; split=> //; left.
  case: trunc_ind => [|n] /=; first by case=> <- _; rewrite ?C; split=> //; left.
  by rewrite /finish; case: (compute_kernel _ _ _ _ _) => [g|e'] // -[<- _]; rewrite /= ?C; split=> //; left.
- case K: (st_kernel s) => [k|] /=; last by case=> <- _; rewrite ?K; split=> //; left.
  case C: (st_corrs s) => [cd|] /=; last by case=> <- _; rewrite ?K ?C; split=> //; left.
  by rewrite /finish; case: (check_volterra_inversion _ _ _) => [g|e'] // -[<- _]; rewrite ?K ?C; split=> //; left.
- by rewrite /finish; case: (compute_noise _ _ _ _ _ _ _ _) => [g|e'] // -[<- _]; split=> //; left.
- by rewrite /finish; case: (force_eval _ _) => [g|e'] // -[<- _]; split=> //; left.
Qed.

(** Which call changes which attribute. *)
Lemma frame s c :
  [/\ ~~ sets_force c -> st_force (apply_call s c).1 = st_force s,
      ~~ is_corrs c -> st_corrs (apply_call s c).1 = st_corrs s
    & ~~ is_kernel c -> st_kernel (apply_call s c).1 = st_kernel s].
Proof.
case: c => [|||||rt so|mt k0||xva tk st sp|xs] /=; rewrite ?/call_mean_force ?/call_kernel.
- case: (bind _ _) => [[d g]|e'] //=.
  by rewrite /finish; case: (solve_linear _ _) => [c|e'].
- by [].
- by rewrite /finish; case: (compute_gram _ _).
- by rewrite /finish; case: (compute_gram_kernel _ _).
- by rewrite /finish; case: (compute_effective_mass _).
- by rewrite /finish; case: (compute_corrs _ _ _ _ _ _).
- case C: (st_corrs s) => [cd|] /=; last by rewrite C.
  case: trunc_ind => [|n] /=; first by rewrite C.
  by rewrite /finish; case: (compute_kernel _ _ _ _ _); rewrite /= C.
- case K: (st_kernel s) => [k|] /=; last by rewrite K.
  case C: (st_corrs s) => [cd|] /=; last by rewrite K C.
  by rewrite /finish; case: (check_volterra_inversion _ _ _); rewrite /= K C.
- by rewrite /finish; case: (compute_noise _ _ _ _ _ _ _ _).
- by rewrite /finish; case: (force_eval _ _).
Qed.

Lemma force_call_ok s c : sets_force c -> (apply_call s c).2 = Ok tt -> st_force (apply_call s c).1 <> None.
Proof.
case: c => //= _; rewrite /call_mean_force; case: (bind _ _) => [[d g]|e'] //=.
by rewrite /finish; case: (solve_linear _ _).
Qed.

Lemma corrs_call_ok s c : is_corrs c -> (apply_call s c).2 = Ok tt -> st_corrs (apply_call s c).1 <> None.
Proof. by case: c => //= rt so _; rewrite /finish; case: (compute_corrs _ _ _ _ _ _). Qed.

Lemma kernel_call_ok s c : is_kernel c -> (apply_call s c).2 = Ok tt -> st_kernel (apply_call s c).1 <> None.
Proof.
case: c => //= mt k0 _; rewrite /call_kernel; case: (st_corrs s) => [cd|] //=; case: trunc_ind => [|n] //=.
by rewrite /finish; case: (compute_kernel _ _ _ _ _).
Qed.

(** An attribute never goes back to [None]. *)
Lemma attr_monotone s c :
  [/\ st_force s <> None -> st_force (apply_call s c).1 <> None,
      st_corrs s <> None -> st_corrs (apply_call s c).1 <> None
    & st_kernel s <> None -> st_kernel (apply_call s c).1 <> None].
Proof.
have [f1 f2 f3] := frame s c.
case RR: (apply_call s c) => [s' [[]|e]]; last first.
  by have [[-> -> ->] _ _ _ _] := failure_frame RR.
rewrite RR /= in f1 f2 f3.
have ok : (apply_call s c).2 = Ok tt by rewrite RR.
split.
- case F: (sets_force c); last by rewrite f1 ?F.
  by move=> _; have := force_call_ok F ok; rewrite RR.
- case F: (is_corrs c); last by rewrite f2 ?F.
  by move=> _; have := corrs_call_ok F ok; rewrite RR.
- case F: (is_kernel c); last by rewrite f3 ?F.
  by move=> _; have := kernel_call_ok F ok; rewrite RR.
Qed.

Lemma run_rcons s cs c : run_calls s (rcons cs c) = (apply_call (run_calls s cs) c).1.
Proof. by rewrite /run_calls /Workflow.run_calls foldl_rcons. Qed.

Lemma succeeded_rcons P s cs c :
  succeeded P s (rcons cs c) <-> succeeded P s cs \/ (P c /\ (apply_call (run_calls s cs) c).2 = Ok tt).
Proof.
split.
- case=> cs1 [c1 [cs2 [E Pc ok]]]; case: (lastP cs2) E => [|cs3 c3].
    by rewrite cats1 => /rcons_inj[-> ->]; right.
  rewrite -rcons_cons -rcons_cat => /rcons_inj[-> _]; left.
  by exists cs1, c1, cs3.
- case=> [[cs1 [c1 [cs2 [E Pc ok]]]]|[Pc ok]].
    by exists cs1, c1, (rcons cs2 c); rewrite E -rcons_cons -rcons_cat.
  by exists cs, c, [::]; rewrite cats1.
Qed.

(** The attributes exist exactly when the corresponding call has succeeded. *)
Lemma attrs_reachable cs :
  [/\ st_force (run_calls (init m) cs) <> None <-> succeeded sets_force (init m) cs,
      st_corrs (run_calls (init m) cs) <> None <-> succeeded is_corrs (init m) cs
    & st_kernel (run_calls (init m) cs) <> None <-> succeeded is_kernel (init m) cs].
Proof.
elim/last_ind: cs => [|cs c [IH1 IH2 IH3]].
  by split; split=> //; case=> -[|c1 cs1] [c2 [cs2 []]].
rewrite run_rcons; set s := run_calls _ cs in IH1 IH2 IH3 *.
have [f1 f2 f3] := frame s c; have [m1 m2 m3] := attr_monotone s c.
have fail e : (apply_call s c).2 = Err e ->
   [/\ st_force (apply_call s c).1 = st_force s, st_corrs (apply_call s c).1 = st_corrs s
     & st_kernel (apply_call s c).1 = st_kernel s].
  case RR: (apply_call s c) => [s' r] /= E; rewrite E in RR.
  by have [[-> -> ->] _ _ _ _] := failure_frame RR.
split; rewrite succeeded_rcons -/s.
- split=> [H|[/IH1/m1//|[Pc ok]]]; last exact: force_call_ok.
  case E: (apply_call s c).2 => [[]|e]; last first.
    by left; apply/IH1; have [<- _ _] := fail _ E.
  case F: (sets_force c); first by right.
  by left; apply/IH1; rewrite -f1 ?F.
- split=> [H|[/IH2/m2//|[Pc ok]]]; last exact: corrs_call_ok.
  case E: (apply_call s c).2 => [[]|e]; last first.
    by left; apply/IH2; have [_ <- _] := fail _ E.
  case F: (is_corrs c); first by right.
  by left; apply/IH2; rewrite -f2 ?F.
- split=> [H|[/IH3/m3//|[Pc ok]]]; last exact: kernel_call_ok.
  case E: (apply_call s c).2 => [[]|e]; last first.
    by left; apply/IH3; have [_ _ <-] := fail _ E.
  case F: (is_kernel c); first by right.
  by left; apply/IH3; rewrite -f3 ?F.
Qed.

Lemma notNone A (x : option A) : ~ x <> None -> x = None.
Proof. by case: x => // a H; case: H. Qed.

(** Calls out of order, in every sequence. *)
Lemma out_of_order cs : let s := run_calls (init m) cs in
  [/\ ~ succeeded sets_force (init m) cs ->
        [/\ forall rt so, apply_call s (CallCorrs m rt so) = (s, Err Documented),
            forall xva tk st sp, apply_call s (CallNoise m xva tk st sp) = (s, Err Documented)
          & forall xs, apply_call s (CallForceEval m xs) = (s, Err Documented)],
      ~ succeeded is_corrs (init m) cs ->
        forall mt k0, apply_call s (CallKernel mt k0) = (s, Err AttributeError)
    & ~ succeeded is_kernel (init m) cs ->
        apply_call s (CallCheck m) = (s, Err Documented) /\
        forall xva tk st sp, exists e, apply_call s (CallNoise m xva tk st sp) = (s, Err e)].
Proof.
have [H1 H2 H3] := attrs_reachable cs; move=> s; rewrite -/s in H1 H2 H3; split.
- move=> H; have Ef : st_force s = None by apply: notNone => /H1.
  by split=> *; rewrite /= Ef.
- move=> H mt k0; have Ec : st_corrs s = None by apply: notNone => /H2.
  by rewrite /= /call_kernel Ec.
- move=> H; have Ek : st_kernel s = None by apply: notNone => /H3.
  split=> [|xva tk st sp]; first by rewrite /= Ek.
  rewrite /= Ek /= /compute_noise; case: (st_force s) => [c|] /=; last by eexists.
  case: (rd xva 0) => [s0|e] /=; last by eexists.
  case: (rd _ 1) => [t1|e] /=; last by eexists.
  by case: (rd _ 0) => [t0|e] /=; eexists.
Qed.

(** ** Freshness *)
Definition corrs_fresh s : Prop := forall cd, st_corrs s = Some cd ->
  exists rt so, compute_corrs w rt so trunc_ind (st_force s) trajs = Ok cd.

Definition kernel_fresh s : Prop := forall k, st_kernel s = Some k ->
  exists rt so cd mt k0, compute_corrs w rt so trunc_ind (st_force s) trajs = Ok cd /\
    compute_kernel dt trunc_ind cd mt k0 = Ok k.

Lemma corrs_fresh_step s c : ~~ sets_force c -> corrs_fresh s -> corrs_fresh (apply_call s c).1.
Proof.
move=> nf fr; have [f1 f2 _] := frame s c; rewrite /corrs_fresh f1 //.
case: c nf {f1} f2 => [|||||rt so|mt k0||xva tk st sp|xs] // _ f2; try by rewrite f2.
rewrite /= /finish; case RR: (compute_corrs _ _ _ _ _ _) => [g|e] // cd /= [<-].
by exists rt, so.
Qed.

Lemma corrs_call_fresh s c : is_corrs c -> (apply_call s c).2 = Ok tt -> corrs_fresh (apply_call s c).1.
Proof.
case: c => // rt so _; rewrite /= /finish; case RR: (compute_corrs _ _ _ _ _ _) => [g|e] // _ cd /= [<-].
by exists rt, so.
Qed.

Lemma kernel_fresh_step s c : ~~ sets_force c -> corrs_fresh s -> kernel_fresh s ->
  kernel_fresh (apply_call s c).1.
Proof.
move=> nf cf fr; have [f1 _ f3] := frame s c; rewrite /kernel_fresh f1 //.
case: c nf {f1} f3 => [|||||rt so|mt k0||xva tk st sp|xs] // _ f3; try by rewrite f3.
rewrite /= /call_kernel; case C: (st_corrs s) => [cd|] /=; last exact: fr.
have [rt [so H]] := cf _ C.
case T: trunc_ind => [|n] /=; first by rewrite -T; exact: fr.
rewrite /finish -T; case RR: (compute_kernel _ _ _ _ _) => [g|e] /=; last exact: fr.
move=> k [<-].
by exists rt, so, cd, mt, k0.
Qed.

Lemma kernel_call_fresh s c : is_kernel c -> corrs_fresh s -> (apply_call s c).2 = Ok tt ->
  kernel_fresh (apply_call s c).1.
Proof.
case: c => // mt k0 _ cf; have [f1 _ _] := frame s (CallKernel mt k0); rewrite /kernel_fresh f1 //.
rewrite /= /call_kernel; case C: (st_corrs s) => [cd|] //=.
have [rt [so H]] := cf _ C.
case: trunc_ind H => [|n] H //=; rewrite /finish.
case RR: (compute_kernel _ _ _ _ _) => [g|e] //= _ k [<-].
by exists rt, so, cd, mt, k0.
Qed.

Lemma run_fresh s cs : all (fun c => ~~ sets_force c) cs -> corrs_fresh s ->
  corrs_fresh (run_calls s cs).
Proof.
elim: cs s => [|c cs IH] s //= /andP[nf H] fr.
by apply: IH => //; apply: corrs_fresh_step.
Qed.

Lemma run_kernel_fresh s cs : all (fun c => ~~ sets_force c) cs -> corrs_fresh s -> kernel_fresh s ->
  kernel_fresh (run_calls s cs).
Proof.
elim: cs s => [|c cs IH] s //= /andP[nf H] cf fr.
by apply: IH => //; [apply: corrs_fresh_step | apply: kernel_fresh_step].
Qed.

Lemma run_cat s cs cs' : run_calls s (cs ++ cs') = run_calls (run_calls s cs) cs'.
Proof. exact: foldl_cat. Qed.

(** Any history, then correlations, then (with no change of force in between) a
    kernel, then anything that does not change the force. *)
Lemma pipeline_fresh cs0 rt so cs1 mt k0 cs2 :
  let s0 := run_calls (init m) cs0 in
  let s1 := (apply_call s0 (CallCorrs m rt so)).1 in
  let s2 := run_calls s1 cs1 in
  let s3 := (apply_call s2 (CallKernel mt k0)).1 in
  (apply_call s0 (CallCorrs m rt so)).2 = Ok tt ->
  (apply_call s2 (CallKernel mt k0)).2 = Ok tt ->
  all (fun c => ~~ sets_force c) (cs1 ++ cs2) ->
  st_kernel (run_calls s3 cs2) <> None /\ kernel_fresh (run_calls s3 cs2).
Proof.
move=> s0 s1 s2 s3 ok1 ok2; rewrite all_cat => /andP[n1 n2].
have c1 : corrs_fresh s1 by apply: corrs_call_fresh.
have c2 : corrs_fresh s2 by apply: run_fresh.
have c3 : corrs_fresh s3 by apply: corrs_fresh_step.
have k3 : kernel_fresh s3 by apply: kernel_call_fresh.
split; last exact: run_kernel_fresh.
have := kernel_call_ok (c := CallKernel mt k0) isT ok2; rewrite -/s3.
elim: cs2 s3 {n2 c3 k3} => [|c cs IH] s //= H; apply: IH.
by have [_ _ /(_ H)] := attr_monotone s c.
Qed.

End Calls.
