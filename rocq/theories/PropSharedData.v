(** * C77: estimators working on shared trajectories (gle_estimation.py:105-117, 152-163, 240-249). *)
From Coq Require Import String.
From mathcomp Require Import all_ssreflect.
From Verif Require Import Base EstimatorProofs SharedData SharedDataProofs.
Set Implicit Arguments.
Unset Strict Implicit.
Unset Printing Implicit Defensive.
Local Open Scope string_scope.

Section C77.
Variables (V B F : Type) (reads : B -> seq string) (dEf : B -> seq V -> V) (cols : V -> nat).
Variable fit : B -> seq (seq V * V) -> res F.

(** The model used by a call of [to_gfpe]. *)
Definition model_of (e : estimator B F) (m : option B) := if m is Some b then b else e_basis e.
(** Value [v] is the derivative of the basis of [b] on the variables of [d]. *)
Definition is_dE (b : B) (d : dataset V) (v : V) :=
  exists vs, [seq Some x | x <- vs] = [seq d n | n <- reads b] /\ v = dEf b vs.

Lemma basis_dEP b (d : dataset V) v : basis_dE reads dEf b d = Ok v <-> is_dE b d v.
Proof.
rewrite /basis_dE /is_dE.
suff H vs : mapM (get d) (reads b) = Ok vs <-> [seq Some x | x <- vs] = [seq d n | n <- reads b].
  split.
    by case E: (mapM _ _) => [vs|] //= [<-]; exists vs; split => //; apply/H.
  by case=> vs [/H -> ->].
elim: (reads b) vs => [|n l IH] vs /=; first by split; [case=> <- | case: vs].
rewrite /get; case: (d n) => [x|] /=; last by split; [|case: vs].
case E: (mapM _ _) => [ws|y] /=.
  split; first by case=> <- /=; rewrite ((IH ws).1 E).
  by case: vs => //= x' vs [-> /IH]; rewrite E => -[->].
split => //; by case: vs => //= x' vs [_ /IH]; rewrite E.
Qed.

(** Only the variable [name] of the estimator's own datasets can change, whatever the outcome; and
    trajectories, basis and computed force are kept. *)
Theorem C77_frame (h : heap V) (e : estimator B F) m name h' (e' : estimator B F) r : to_gfpe reads dEf cols h e m name = (h', e', r) ->
  (forall q n, ~ (q \in e_trajs e) \/ n <> name -> h' q n = h q n)
  /\ [/\ e_trajs e' = e_trajs e, e_basis e' = e_basis e, e_force e' = e_force e & e_rank e' = false].
Proof.
rewrite /to_gfpe; case E: (gfpe_loop _ _ _ _ _ _ _) => [h1 res].
have fr q n : ~ (q \in e_trajs e) \/ n <> name -> h1 q n = h q n by exact: (loop_frame E).
by case: res E => [[v|]|x] _ [<- <- _].
Qed.

(** With a name that the basis does not read, the call succeeds exactly when there is a trajectory
    and every trajectory has all the variables; then every trajectory gets the derivative of the basis
    on its own data, and this is the observable of the estimator. *)
Theorem C77_success (h : heap V) (e : estimator B F) m name : ~ List.In name (reads (model_of e m)) ->
  (exists h' e', to_gfpe reads dEf cols h e m name = (h', e', Ok tt)) <->
  (e_trajs e != [::] /\ forall q n, q \in e_trajs e -> List.In n (reads (model_of e m)) -> h q n <> None).
Proof.
move=> nr; rewrite /to_gfpe /= -/(model_of e m); set b := model_of e m.
have ex q : (exists v, basis_dE reads dEf b (h q) = Ok v) <-> (forall n, List.In n (reads b) -> h q n <> None).
  rewrite /basis_dE; elim: (reads b) => [|n l IH] /=; first by split=> // _; exists (dEf b [::]).
  rewrite /get; case En: (h q n) => [x|] /=; last by split=> [[]|/(_ n (or_introl erefl))].
  split.
    case: (mapM _ _) IH => [ws|y] /= [IH _] [v] // _ k [<-|kl]; first by rewrite En.
    by apply: IH => //; exists (dEf b ws).
  move=> H; have /IH : forall k, List.In k l -> h q k <> None by move=> k kl; apply: H; right.
  by case: (mapM _ _) => [ws|y] [v] //= _; exists (dEf b (x :: ws)).
split.
  case E: (gfpe_loop _ _ _ _ _ _ _) => [h1 [[v|]|x]] [h' [e']] // _.
  have [H1 H2] := loop_values nr E; split; first by case: (e_trajs e) H2.
  move=> q n qt; apply: (ex q).1; by have [w Ew _] := H1 q qt; exists w.
case=> ne H; have [h1 [l E]] := loop_ok None nr (fun q qt => (ex q).2 (fun n => H q n qt)).
rewrite E; have [_] := loop_values nr E; case: (e_trajs e) ne => // q qs _ [v _ ->].
by exists h1, (put_obs (put_rank e false) name (cols v)).
Qed.

Theorem C77_observable (h : heap V) (e : estimator B F) m name h' e' : ~ List.In name (reads (model_of e m)) ->
  to_gfpe reads dEf cols h e m name = (h', e', Ok tt) ->
  (forall q, q \in e_trajs e -> exists2 v, is_dE (model_of e m) (h q) v & h' q name = Some v)
  /\ e_L_obs e' = name
  /\ exists2 v, h' (last 0 (e_trajs e)) name = Some v & e_dim_obs e' = cols v.
Proof.
move=> nr; rewrite /to_gfpe /= -/(model_of e m).
case E: (gfpe_loop _ _ _ _ _ _ _) => [h1 [[v|]|x]] // [<- <-].
have [H1 H2] := loop_values nr E; split; first by move=> q /H1[w /basis_dEP Hw Ew]; exists w.
split=> //=; exists v => //; case: (e_trajs e) H1 H2 => // q qs H1 [w Ew [->]] /=.
by have [w' Ew' ->] := H1 (last q qs) (mem_last _ _); move: Ew'; rewrite Ew => -[->].
Qed.

(** A second call with the same arguments changes nothing. *)
Theorem C77_idempotent (h : heap V) (e : estimator B F) m name h1 (e1 : estimator B F) h2 (e2 : estimator B F) r2 : ~ List.In name (reads (model_of e m)) ->
  to_gfpe reads dEf cols h e m name = (h1, e1, Ok tt) ->
  to_gfpe reads dEf cols h1 e1 m name = (h2, e2, r2) ->
  r2 = Ok tt /\ e2 = e1 /\ forall q n, h2 q n = h1 q n.
Proof.
move=> nr R1 R2; have [f1 [t1 b1 _ _]] := C77_frame R1; have [f2 _] := C77_frame R2.
have mo : model_of e1 m = model_of e m by rewrite /model_of b1.
have nr1 : ~ List.In name (reads (model_of e1 m)) by rewrite mo.
have same q : basis_dE reads dEf (model_of e m) (h1 q) = basis_dE reads dEf (model_of e m) (h q).
  by apply: basis_dE_ext => n nin; rewrite f1 //; right => en; rewrite en in nin.
have S1 : e_trajs e != [::] /\ forall q n, q \in e_trajs e -> List.In n (reads (model_of e m)) -> h q n <> None.
  by apply: (C77_success h nr).1; exists h1, e1.
have [h3 [e3 E3]] : exists h' e', to_gfpe reads dEf cols h1 e1 m name = (h', e', Ok tt).
  apply: (C77_success h1 nr1).2; rewrite t1 mo; case: S1 => ne S1; split=> // q n qt nin.
  by rewrite f1; [exact: S1 | right => en; rewrite en in nin].
have r2E : r2 = Ok tt by move: R2; rewrite E3 => -[_ _ <-].
rewrite r2E in R2 *; split=> //.
have [v1 [o1 [w1 L1 D1]]] := C77_observable nr R1; have [v2 [o2 [w2 L2 D2]]] := C77_observable nr1 R2.
have hq q n : h2 q n = h1 q n.
  case: (boolP (q \in e_trajs e)) => qt; last by apply: f2; left; rewrite t1; exact/negP.
  case: (String.eqb_spec n name) => [->|ne]; last by apply: f2; right.
  have [a /basis_dEP Ea ->] : exists2 a, is_dE (model_of e m) (h q) a & h1 q name = Some a by exact: v1.
  have [c /basis_dEP] : exists2 c, is_dE (model_of e1 m) (h1 q) c & h2 q name = Some c by apply: v2; rewrite t1.
  by rewrite mo same Ea => -[->].
split=> //.
have dE : e_dim_obs e2 = e_dim_obs e1.
  by rewrite D1 D2; move: L2; rewrite t1 hq L1 => -[->].
have [_ [t2 b2 F2 k2]] := C77_frame R2; have [_ [_ _ _ k1]] := C77_frame R1.
case: (e2) (e1) t2 b2 F2 k2 k1 o1 o2 dE => t2 b2 rk2 l2 d2 g2 [t b rk l d g] /=.
by move=> -> -> -> -> -> -> -> ->.
Qed.

(** A failing call leaves the observable, its dimension and the force, but the projection is off. *)
Theorem C77_failure (h : heap V) (e : estimator B F) m name h' (e' : estimator B F) x : to_gfpe reads dEf cols h e m name = (h', e', Err x) ->
  e' = Est (e_trajs e) (e_basis e) false (e_L_obs e) (e_dim_obs e) (e_force e).
Proof.
by rewrite /to_gfpe; case: (gfpe_loop _ _ _ _ _ _ _) => h1 [[v|]|y] // [_ <- _].
Qed.

(** The names used by estimator [i]: the variables read by its basis and by the models given to its
    calls, its observable, and the names it writes. *)
Definition uses (s : state V B F) (calls : seq (nat * call B)) (i : nat) (n : string) : Prop :=
  List.In n (reads (e_basis (s.2 i))) \/ n = e_L_obs (s.2 i)
  \/ exists m name, List.In (i, ToGfpe m name) calls /\ (n = name \/ List.In n (reads (model_of (s.2 i) m))).

(** If no other estimator writes, into a dataset shared with [i], a variable that [i] uses, then what
    [i] computes in the interleaved run is what it computes alone. *)
Theorem C77_isolated_partial (s : state V B F) calls i :
  (forall j m name q, j <> i -> List.In (j, ToGfpe m name) calls ->
     q \in e_trajs (s.2 i) -> q \in e_trajs (s.2 j) -> ~ uses s calls i name) ->
  let alone := [seq p <- calls | p.1 == i] in
  (run reads dEf cols fit s calls).1.2 i = (run reads dEf cols fit s alone).1.2 i
  /\ [seq p <- (run reads dEf cols fit s calls).2 | p.1 == i] = (run reads dEf cols fit s alone).2.
Proof.
move=> H alone; apply: (@isolated _ _ _ reads dEf cols fit i (uses s calls i) s s calls) => //.
- by move=> n nin; left.
- by right; left.
- move=> m name cin; split; first by right; right; exists m, name; split=> //; left.
  by move=> n nin; right; right; exists m, name; split=> //; right.
- by move=> j m name r ji cin u ri rj; exact: (H j m name r ji cin ri rj).
Qed.

(** Estimators without a common dataset never disturb each other. *)
Theorem C77_disjoint (s : state V B F) calls i :
  (forall j q, j <> i -> q \in e_trajs (s.2 i) -> ~ (q \in e_trajs (s.2 j))) ->
  (run reads dEf cols fit s calls).1.2 i = (run reads dEf cols fit s [seq p <- calls | p.1 == i]).1.2 i
  /\ [seq p <- (run reads dEf cols fit s calls).2 | p.1 == i] = (run reads dEf cols fit s [seq p <- calls | p.1 == i]).2.
Proof.
by move=> H; apply: C77_isolated_partial => j m name q ji _ qi qj; case: (H j q ji qi).
Qed.
End C77.
Print Assumptions C77_frame.
Print Assumptions C77_success.
Print Assumptions C77_observable.
Print Assumptions C77_idempotent.
Print Assumptions C77_failure.
Print Assumptions C77_isolated_partial.
Print Assumptions C77_disjoint.

(** ** Witness: positions and velocities are columns of numbers, a basis is an exponent [k] (value
    [x^k], derivative [k x^(k-1) v]); exponent 0 stands for a model also reading the accelerations.  The
    force is the list of the observables.  Estimator 0 has basis [x^2], estimator 1 has [x^3]. *)
Definition wreads (k : nat) : seq string := if k is 0 then [:: "x"; "v"; "a"] else [:: "x"; "v"].
Definition wdE (k : nat) (vs : seq (seq nat)) : seq nat :=
  [seq (k * xv.1 ^ k.-1 * xv.2)%N | xv <- zip (nth [::] vs 0) (nth [::] vs 1)].
Definition wfit (k : nat) (l : seq (seq (seq nat) * seq nat)) : res (seq (seq nat)) := Ok (unzip2 l).
Definition wheap : heap (seq nat) := fun r n =>
  if String.eqb n "x" then Some [:: 1; 2 + r; 3] else if String.eqb n "v" then Some [:: 1; 1; 2]
  else if (r == 0) && String.eqb n "a" then Some [:: 0; 1; 0] else None.
Definition west (rs : seq nat) (k : nat) : estimator nat (seq (seq nat)) := Est rs k true "v" 1 None.
Local Notation wrun := (run wreads wdE (@size nat) wfit).
Local Notation wgfpe := (to_gfpe wreads wdE (@size nat)).

(** On two datasets the estimators do not disturb each other although they use the same name. *)
Example C77_example :
  let s := (wheap, fun i => west [:: i] (i + 2)) in
  let calls := [:: (0, ToGfpe None "dE"); (1, ToGfpe None "dE"); (0, @MeanForce nat); (1, @MeanForce nat)] in
  (forall j q, j <> 0 -> q \in e_trajs (s.2 0) -> ~ (q \in e_trajs (s.2 j)))
  /\ e_force ((wrun s calls).1.2 0) = Some [:: [:: 2; 4; 12]]
  /\ e_force ((wrun s [:: (0, ToGfpe None "dE"); (0, @MeanForce nat)]).1.2 0) = Some [:: [:: 2; 4; 12]]
  /\ e_force ((wrun s calls).1.2 1) = Some [:: [:: 3; 27; 54]].
Proof. by split=> [j q ji|] //=; rewrite !inE => /eqP -> /eqP e; apply: ji. Qed.

(** On one dataset, other names protect them. *)
Example C77_names_example :
  let s := (wheap, fun i => west [:: 0] (i + 2)) in
  let calls := [:: (0, ToGfpe None "dE"); (1, ToGfpe None "dE1"); (0, @MeanForce nat); (1, @MeanForce nat)] in
  (forall j m name q, j <> 0 -> List.In (j, ToGfpe m name) calls ->
     q \in e_trajs (s.2 0) -> q \in e_trajs (s.2 j) -> ~ uses wreads s calls 0 name)
  /\ e_force ((wrun s calls).1.2 0) = Some [:: [:: 2; 4; 12]]
  /\ e_force ((wrun s calls).1.2 1) = Some [:: [:: 3; 12; 54]].
Proof.
split=> // j m name q j0 /= [[]|[[ej em en]|[[]//|[[]//|[]]]]]; first by move=> e0; case: j0.
subst name => _ _ [[]|] //=; first by case.
case=> // -[m' [name' [[[em' en']|[[]|[[]|[[]|[]]]]] //]]].
by subst m' name' => -[//|/= [//|[//|[]]]].
Qed.

(** False: an estimator's result does not depend on the other estimators built on the same
    trajectories.  Both use the default name. *)
Theorem C77_isolated_refuted :
  exists (s : state (seq nat) nat (seq (seq nat))) (calls : seq (nat * call nat)) i,
    e_force ((wrun s calls).1.2 i) <> e_force ((wrun s [seq p <- calls | p.1 == i]).1.2 i).
Proof.
exists (wheap, fun i => west [:: 0] (i + 2)).
by exists [:: (0, ToGfpe None "dE"); (1, ToGfpe None "dE"); (0, @MeanForce nat)], 0.
Qed.
Print Assumptions C77_isolated_refuted.

(** False: the trajectories of the user are not modified; already the velocities can be lost. *)
Theorem C77_data_refuted :
  exists h (e : estimator nat (seq (seq nat))) h' e' q,
    wgfpe h e None "v" = (h', e', Ok tt) /\ h' q "v" <> h q "v" /\ h q "v" <> None.
Proof.
exists wheap, (west [:: 0] 2).
by do 2 eexists; exists 0; split; first by rewrite /to_gfpe /=; reflexivity.
Qed.
Print Assumptions C77_data_refuted.

(** False: a failing call changes nothing.  The model given as argument needs the accelerations, which
    the second dataset lacks. *)
Theorem C77_atomic_refuted :
  exists h (e : estimator nat (seq (seq nat))) b h' e',
    wgfpe h e (Some b) "dE" = (h', e', Err KeyError) /\ e_rank e = true /\ e_rank e' = false
    /\ h 0 "dE" = None /\ h' 0 "dE" <> None /\ h' 1 "dE" = None.
Proof.
exists wheap, (west [:: 0; 1] 2), 0.
by do 2 eexists; split; first by rewrite /to_gfpe /=; reflexivity.
Qed.
Print Assumptions C77_atomic_refuted.

(** False: after [to_gfpe] the force of the estimator is that of its observable: a force computed
    before is kept. *)
Theorem C77_force_refuted :
  exists (s : state (seq nat) nat (seq (seq nat))) calls f,
    let s' := (wrun s calls).1 in
    [/\ e_force (s'.2 0) = Some f, e_L_obs (s'.2 0) = "dE"
      & e_force ((wrun s' [:: (0, @MeanForce nat)]).1.2 0) <> Some f].
Proof.
exists (wheap, fun i => west [:: 0] (i + 2)), [:: (0, @MeanForce nat); (0, ToGfpe None "dE")].
by exists [:: [:: 1; 1; 2]].
Qed.
Print Assumptions C77_force_refuted.
