(** * Time integration: specification and proofs. *)
From mathcomp Require Import all_ssreflect all_algebra.
From mathcomp Require Import zify.
From Verif Require Import Base Tactics FKernel Quadrature MemorySpec FKernelProofs VolterraMain Integrator.
Set Implicit Arguments.
Unset Strict Implicit.
Unset Printing Implicit Defensive.
Import Order.TTheory GRing.Theory Num.Theory.
Local Open Scope ring_scope.

(** ** Specification *)
Section Spec.
Variables (R : realFieldType) (d N : nat).
Local Notation row := 'rV[R]_d.

(** One step of the classical Runge-Kutta method for [x' = v, v' = acc theta x v], where
    [theta] is the fraction of the step already done. *)
Definition rk4 (h : R) (acc : R -> row -> row -> row) (x v : row) : row * row :=
  let: (dx1, dv1) := (v, acc 0 x v) in
  let: (dx2, dv2) := (v + (h / 2%:R) *: dv1, acc 2^-1 (x + (h / 2%:R) *: dx1) (v + (h / 2%:R) *: dv1)) in
  let: (dx3, dv3) := (v + (h / 2%:R) *: dv2, acc 2^-1 (x + (h / 2%:R) *: dx2) (v + (h / 2%:R) *: dv2)) in
  let: (dx4, dv4) := (v + h *: dv3, acc 1 (x + h *: dx3) (v + h *: dv3)) in
  (x + (h / 6%:R) *: (dx1 + 2%:R *: dx2 + 2%:R *: dx3 + dx4),
   v + (h / 6%:R) *: (dv1 + 2%:R *: dv2 + 2%:R *: dv3 + dv4)).

(** Memory integral at the time of the last element of the history [s], trapezoid rule over
    the steps covered by both the history and the kernel. *)
Definition memory_of (h : R) (K : seq 'M[R]_(N, d)) (s : seq 'rV[R]_N) : row :=
  trapz_rule h (mem_integrand s K (size s).-1) (minn (size s).-1 (size K).-1).

End Spec.

Section Run.
Variables (R : realFieldType) (d N Nf : nat) (I : integrator R d N Nf).
Local Notation row := 'rV[R]_d.
Local Notation K := (i_kernel I).
Local Notation dt := (i_dt I).
Implicit Types (X V : seq row) (E : seq 'rV[R]_N).

Lemma sum_zip_rev (E : seq 'rV[R]_N) (Ks : seq 'M[R]_(N, d)) n : size E = n -> size Ks = n ->
  \sum_(p <- zip (rev E) Ks) p.1 *m p.2 = \sum_(i < n) E`_(n - i.+1) *m Ks`_i.
Proof.
move=> sE sK; rewrite (big_nth (0, 0)) size_zip size_rev sE sK minnn big_mkord.
apply: eq_bigr => i _; rewrite nth_zip ?size_rev ?sE ?sK //=.
by rewrite nth_rev ?sE.
Qed.

Lemma memory_of_rcons E e : (0 < size E)%N -> (1 < size K)%N ->
  memory_of dt K (rcons E e) =
  (2^-1 * dt) *: (e *m K`_0)
  + dt *: (\sum_(i < (minn (size E) (size K).-1).-1) E`_(size E - i.+1) *m K`_i.+1)
  + (2^-1 * dt) *: (E`_(size E - minn (size E) (size K).-1) *m K`_(minn (size E) (size K).-1)).
Proof.
move=> s0 k1; rewrite /memory_of size_rcons /= trapz_ruleE; last by slia.
set n := minn _ _; have n1 : (0 < n)%N by slia.
congr (_ *: _ + _ *: _ + _ *: _).
- by rewrite /mem_integrand subn0 nth_rcons ltnn eqxx.
- rewrite big_add1 /= big_mkord; apply: eq_bigr => -[i /= li] _; rewrite /mem_integrand nth_rcons.
  by rewrite ifT //; slia.
- by rewrite /mem_integrand nth_rcons ifT //; slia.
Qed.

Lemma mem_int_redE E : (0 < size E)%N -> (1 < size K)%N ->
  exists2 r, mem_int_red I E = Ok r &
    forall e, r + (2^-1 * dt) *: (e *m K`_0) = memory_of dt K (rcons E e).
Proof.
move=> s0 k1; rewrite /mem_int_red.
set n := minn _ _; have n1 : (0 < n)%N by slia.
have nE : (n <= size E)%N by slia.
have nK : (n < size K)%N by slia.
have sE1 : size (drop (size E - n).+1 E) = n.-1 by rewrite size_drop; slia.
have sK1 : size (drop 1 (take n K)) = n.-1 by rewrite size_drop size_takel; slia.
rewrite size_rev sE1 sK1 eqxx /= (rdE 0); last by slia.
rewrite /= (rdE 0) //=; eexists; first reflexivity.
move=> e; rewrite memory_of_rcons // -/n (sum_zip_rev sE1 sK1) addrC addrA; congr (_ + _ *: _ + _).
apply: eq_bigr => i _; rewrite !nth_drop nth_take; last by have := ltn_ord i; slia.
by congr (_ *m _); congr nth; have := ltn_ord i; slia.
Qed.

(** Fails exactly when there is no history or the kernel has a single sample. *)
Lemma mem_int_red_short E : (size E == 0)%N || (size K <= 1)%N -> mem_int_red I E = Err OutOfBounds.
Proof.
move=> H; rewrite /mem_int_red.
have -> : minn (size E) (size K).-1 = 0%N by case/orP: H => H; slia.
rewrite take0 /= subn0 drop_oversize ?leqnSn //= rd_oob //.
Qed.

(** The acceleration seen by the Runge-Kutta stages: memory interpolated between the two
    ends of the step. *)
Definition acceleration (fr M0 : row) (M1 : 'rV[R]_N -> row) (theta : R) (x v : row) : row :=
  i_basis I x *m i_force I + fr - ((1 - theta) *: M0 + theta *: M1 (i_evec I x v)).

Lemma rk_stepE x v rmi fr last_E last_rmi : (0 < size K)%N ->
  rk_step I x v rmi fr last_E last_rmi =
  Ok (rk4 dt (acceleration fr (last_rmi + (2^-1 * dt) *: (last_E *m K`_0))
                              (fun e => rmi + (2^-1 * dt) *: (e *m K`_0))) x v).
Proof.
move=> k0; rewrite /rk_step /f_rk (rdE 0 k0) /= /rk4 /acceleration.
have h : 1 - 2^-1 = 2^-1 :> R by rewrite {1}(splitr 1) mul1r addrK.
rewrite !subr0 !subrr h !scale0r !scale1r !addr0 !add0r scalerA.
by [].
Qed.

(** Basis values along a trajectory. *)
Definition evals X V n : seq 'rV[R]_N := mkseq (fun j => i_evec I X`_j V`_j) n.

(** Sample [i] is one Runge-Kutta step after sample [i - 1], the memory at both ends being
    the trapezoid rule over the basis values of the trajectory itself.  The first step of a
    trajectory without history has an extra half weight in the memory of its start. *)
Definition start_memory X V i : row :=
  memory_of dt K (evals X V i)
  + (if i == 1%N then (2^-1 * dt) *: (i_evec I X`_0 V`_0 *m K`_0) else 0).

Definition follows (fr : nat -> row) X V i : Prop :=
  (X`_i, V`_i) =
  rk4 dt (acceleration (fr i) (start_memory X V i)
            (fun e => memory_of dt K (rcons (evals X V i) e))) X`_i.-1 V`_i.-1.

Lemma evals_ext X V X' V' n :
  (forall j, (j < n)%N -> X`_j = X'`_j /\ V`_j = V'`_j) -> evals X V n = evals X' V' n.
Proof.
move=> H; apply: (@eq_from_nth _ 0); rewrite ?size_mkseq // => j lj.
by rewrite !nth_mkseq //; have [-> ->] := H j lj.
Qed.

Lemma follows_ext fr X V X' V' i : (0 < i)%N ->
  (forall j, (j <= i)%N -> X`_j = X'`_j /\ V`_j = V'`_j) ->
  follows fr X V i -> follows fr X' V' i.
Proof.
move=> i0 H; rewrite /follows /start_memory.
have -> : evals X V i = evals X' V' i by apply: evals_ext => j lj; apply: H; slia.
have [-> ->] := H i (leqnn _); have [-> ->] := H i.-1 (leq_pred _).
by have [-> ->] := H 0%N (leq0n _).
Qed.

Definition fr_of (zero : bool) (noise : seq row) : nat -> row := fun i => if zero then 0 else noise`_i.

Section Loop.
Variables (n n0 : nat) (noise : seq row) (X0 V0 : seq row) (E0 : seq 'rV[R]_N) (rmi0 : row).
Hypotheses (k1 : (1 < size K)%N) (n00 : (0 < n0 <= n)%N) (sn : (n <= size noise)%N).
Hypotheses (sX0 : size X0 = n) (sV0 : size V0 = n) (sE0 : size E0 = n).
Hypothesis EE0 : take n0 E0 = evals X0 V0 n0.
Hypothesis rmi1 : n0 = 1%N -> rmi0 = 0.
Hypothesis rmi2 : (1 < n0)%N ->
  forall e, rmi0 + (2^-1 * dt) *: (e *m K`_0) = memory_of dt K (rcons (evals X0 V0 n0.-1) e).

Definition inv i (s : state R d N) : Prop :=
  [/\ [/\ size (s_x s) = n, size (s_v s) = n & size (s_E s) = n],
      forall j, (j < n0)%N -> (s_x s)`_j = X0`_j /\ (s_v s)`_j = V0`_j,
      take i (s_E s) = evals (s_x s) (s_v s) i,
      s_cx s = (s_x s)`_i.-1 /\ s_cv s = (s_v s)`_i.-1
    & [/\ i = 1%N -> s_rmi s = 0,
          (1 < i)%N -> forall e, s_rmi s + (2^-1 * dt) *: (e *m K`_0)
             = memory_of dt K (rcons (evals (s_x s) (s_v s) i.-1) e)
        & forall j, (n0 <= j < i)%N -> follows (fun i => noise`_i) (s_x s) (s_v s) j]].

Lemma evalsS X V m : evals X V m.+1 = rcons (evals X V m) (i_evec I X`_m V`_m).
Proof. by rewrite /evals /mkseq -(addn1 m) iotaD map_cat /= cats1. Qed.

Lemma loop_ok : exists2 s,
  for_ n0 n (run_step I noise) (St X0 V0 E0 rmi0 X0`_n0.-1 V0`_n0.-1) = Ok s & inv n s.
Proof.
apply: (@for_ind _ inv); first by slia.
  split=> //; split=> // j; slia.
move=> i [X V E rmi cx cv] ri [/= [sX sV sE] Hin HE [Hcx Hcv] [r1 r2 Hf]].
have i0 : (0 < i)%N by slia.
have st : size (take i E) = i by rewrite size_takel // sE; slia.
have last : E`_i.-1 = i_evec I X`_i.-1 V`_i.-1.
  by rewrite -(@nth_take i) ?HE ?nth_mkseq ?prednK.
rewrite /run_step /= (rdE (0 : 'rV[R]_N)); last by slia.
have [||rmi' Er Hr] := mem_int_redE (E := take i E); rewrite ?st // {}Er /=.
rewrite (rdE (0 : row)); last by slia.
rewrite /= rk_stepE; last by slia.
move Exv : (rk4 _ _ _ _) => xv; rewrite [bind _ _]/=.
have iX : (i < size X)%N by slia.
have iV : (i < size V)%N by slia.
have iE : (i < size E)%N by slia.
have [X' -> [sX' HX']] := wr_total (0 : row) xv.1 iX.
have [V' -> [sV' HV']] := wr_total (0 : row) xv.2 iV.
have [E' -> [sE' HE']] := wr_total (0 : 'rV[R]_N) (i_evec I xv.1 xv.2) iE.
rewrite /=; eexists; first reflexivity.
have low j : (j < i)%N -> X`_j = X'`_j /\ V`_j = V'`_j.
  by move=> lj; rewrite HX' HV'; case: eqP => [Ej|//]; slia.
have Ev : evals X' V' i = evals X V i by apply/esym/evals_ext.
split=> /=.
- by rewrite sX' sV' sE'.
- by move=> j lj; have [<- <-] := low j (leq_trans lj (proj1 (andP ri))); apply: Hin.
- rewrite evalsS Ev -HE HX' HV' !eqxx; apply: (@eq_from_nth _ 0).
    by rewrite size_takel ?size_rcons ?st // sE'; slia.
  move=> j; rewrite size_takel => [lj|]; last by slia.
  rewrite nth_take // HE' nth_rcons st; case E1: (j < i)%N; last by have -> : j = i by [slia]; rewrite !eqxx.
  by rewrite nth_take //; case: eqP => // Ej; slia.
- by rewrite HX' HV' !eqxx.
split=> [E1|_ e|j rj].
- by slia.
- by rewrite Ev -HE Hr.
have [lj|] := boolP (j < i)%N.
  apply: (@follows_ext _ X V) => [|k kj|]; first slia; last by apply: Hf; slia.
  by apply: low; slia.
move=> nlj; have -> : j = i by slia.
rewrite /follows HX' HV' !eqxx /start_memory Ev.
have [<- <-] : X`_i.-1 = X'`_i.-1 /\ V`_i.-1 = V'`_i.-1 by apply: low; slia.
have [<- <-] := low 0%N i0.
rewrite -surjective_pairing -Exv Hcx Hcv last /acceleration /rk4.
have -> : rmi + (2^-1 * dt) *: (i_evec I X`_i.-1 V`_i.-1 *m K`_0)
  = memory_of dt K (evals X V i) + (if i == 1%N then (2^-1 * dt) *: (i_evec I X`_0 V`_0 *m K`_0) else 0).
  case: eqP => [E1|ni].
    rewrite E1 r1 // add0r /= /memory_of /trapz_rule size_mkseq min0n big_ord0 scaler0 add0r.
    by [].
  rewrite r2 ?addr0; last by slia.
  by rewrite -[in RHS](prednK i0) evalsS.
by rewrite !Hr HE.
Qed.

End Loop.

(** ** Whole runs *)

(** Well-formed history for a run of [n] steps. *)
Definition history_ok (n : nat) (x0 : option (traj R d)) : Prop :=
  if x0 is Some s then
    [/\ t_time s = mkseq (fun i => i%:R * dt) (size (t_time s)), (0 < size (t_time s) <= n)%N,
        size (t_x s) = size (t_time s) & size (t_v s) = size (t_time s)]
  else (0 < n)%N.

Definition history_len (x0 : option (traj R d)) : nat := if x0 is Some s then size (t_time s) else 1.
Definition history_x (x0 : option (traj R d)) i : row := if x0 is Some s then (t_x s)`_i else 0.
Definition history_v (x0 : option (traj R d)) i : row := if x0 is Some s then (t_v s)`_i else 0.

Lemma fill_evals X V n n0 : size X = n -> size V = n -> (n0 <= n)%N ->
  exists2 E, for_ 0 n0 (fun ind E =>
      let! x := rd X ind in
      let! v := rd V ind in
      wr E ind (i_evec I x v)) (nseq n 0) = Ok E &
    size E = n /\ take n0 E = evals X V n0.
Proof.
move=> sX sV le; set body := (X in for_ _ _ X).
pose P k (E : seq 'rV[R]_N) := size E = n /\ forall j, (j < k)%N -> E`_j = i_evec I X`_j V`_j.
have [||E -> [sE H]] := @for_ind _ P 0 n0 body (nseq n 0) (leq0n _).
- by split; rewrite ?size_nseq.
- move=> i E ri [sE H]; rewrite /body (rdE (0 : row)); last by slia.
  rewrite /= (rdE (0 : row)); last by slia.
  have iE : (i < size E)%N by slia.
  have [E' /= -> [sE' HE']] := wr_total (0 : 'rV[R]_N) (i_evec I X`_i V`_i) iE.
  exists E' => //; split; first by rewrite sE'.
  by move=> j lj; rewrite HE'; case: eqP => [->//|nj]; apply: H; slia.
exists E => //; split=> //; apply: (@eq_from_nth _ 0).
  by rewrite size_takel ?size_mkseq // sE.
by move=> j; rewrite size_takel ?sE // => lj; rewrite nth_take // nth_mkseq // H.
Qed.

Lemma runE n x0 zero gen :
  (1 < size K)%N -> history_ok n x0 -> (zero || (n <= size gen)%N) ->
  exists2 t, run I n x0 zero gen = Ok t &
    [/\ size (t_time t) = n /\ size (t_x t) = n /\ size (t_v t) = n,
        forall i, (i < n)%N -> (t_time t)`_i = (history_len x0 - 1 + i)%N%:R * dt,
        forall i, (i < history_len x0)%N -> (t_x t)`_i = history_x x0 i /\ (t_v t)`_i = history_v x0 i
      & forall i, (history_len x0 <= i < n)%N -> follows (fr_of zero gen) (t_x t) (t_v t) i].
Proof.
move=> k1 Hx Hn; rewrite /run.
have sn : (n <= size (if zero then nseq n (0%R : row) else gen))%N.
  by case: zero Hn => //= _; rewrite size_nseq.
set noise := if zero then _ else _ in sn *.
set tx := nseq n (0 : row); set init := (X in bind X _).
have [tx1 [tv1 [Ei [sx sv] [n01 Hxv]]]] : exists tx1 tv1, [/\ init = Ok (history_len x0, tx1, tv1),
     size tx1 = n /\ size tv1 = n & (0 < history_len x0 <= n)%N /\
     forall i, (i < history_len x0)%N -> tx1`_i = history_x x0 i /\ tv1`_i = history_v x0 i].
  rewrite /init; case: x0 Hx {init} => [s|] /=.
    case=> Et n0 s1 s2; rewrite -Et eqxx n0 s1 s2 !eqxx /=.
    exists (t_x s ++ drop (size (t_time s)) tx), (t_v s ++ drop (size (t_time s)) tx); split=> //.
      by rewrite !size_cat !size_drop !size_nseq s1 s2; slia.
    by split=> // i li; rewrite !nth_cat s1 s2 li.
  move=> n0; exists tx, tx; split=> //; first by rewrite size_nseq.
  split=> // i; rewrite ltnS leqn0 => /eqP ->.
  by rewrite /tx nth_nseq if_same.
rewrite Ei /=; have n0n : (history_len x0 <= n)%N by slia.
have [E -> [sE HE]] := fill_evals sx sv n0n; rewrite /=.
set rr := (X in bind X _).
have [rmi Er [r1 r2]] : exists2 rmi, rr = Ok rmi & (history_len x0 = 1%N -> rmi = 0) /\
   ((1 < history_len x0)%N -> forall e, rmi + (2^-1 * dt) *: (e *m K`_0)
       = memory_of dt K (rcons (evals tx1 tv1 (history_len x0).-1) e)).
  rewrite /rr; case: ltnP => n1; last by exists 0 => //; split=> //; slia.
  have st : size (take (history_len x0).-1 E) = (history_len x0).-1 by rewrite size_takel // sE; slia.
  have [||rmi Er Hr] := mem_int_redE (E := take (history_len x0).-1 E); rewrite ?st //; first by slia.
  exists rmi => //; split; first by slia.
  move=> _ e; rewrite Hr; congr (memory_of _ _ (rcons _ _)).
  have -> : take (history_len x0).-1 E = take (history_len x0).-1 (take (history_len x0) E).
    by rewrite take_take // leq_pred.
  rewrite HE.
  apply: (@eq_from_nth _ 0); rewrite ?size_takel ?size_mkseq ?leq_pred // => j lj.
  by rewrite nth_take // !nth_mkseq //; slia.
rewrite Er /= (rdE (0 : row)); last by rewrite sx; slia.
rewrite /= (rdE (0 : row)); last by rewrite sv; slia.
rewrite /=.
have [s -> [[sX sV _] Hin _ _ [_ _ Hf]]] := loop_ok k1 n01 sn sx sv sE HE r1 r2.
rewrite /=; eexists; first reflexivity.
rewrite [t_time _]/= [t_x _]/= [t_v _]/= size_mkseq; split.
- by split.
- by move=> i li; rewrite nth_mkseq.
- by move=> i li; have [-> ->] := Hin i li; apply: Hxv.
move=> i ri; have := Hf i ri; rewrite /follows.
have -> : noise`_i = fr_of zero gen i by rewrite /fr_of /noise; case: (zero) => //; rewrite nth_nseq if_same.
exact: id.
Qed.

(** Without noise the generator is irrelevant. *)
Lemma run_zero n x0 gen gen' : run I n x0 true gen = run I n x0 true gen'.
Proof. by []. Qed.

(** A kernel with a single sample cannot be integrated. *)
Lemma run_short n x0 zero gen : (size K <= 1)%N -> history_ok n x0 -> (zero || (n <= size gen)%N) ->
  (1 < n)%N -> run I n x0 zero gen = Err OutOfBounds.
Proof.
move=> k1 Hx Hn n1; rewrite /run; set noise := if zero then _ else _.
set tx := nseq n (0 : row); set init := (X in bind X _).
have [tx1 [tv1 [Ei [sx sv] n01]]] : exists tx1 tv1, [/\ init = Ok (history_len x0, tx1, tv1),
     size tx1 = n /\ size tv1 = n & (0 < history_len x0 <= n)%N].
  rewrite /init; case: x0 Hx {init} => [s|] /=.
    case=> Et n0 s1 s2; rewrite -Et eqxx n0 s1 s2 !eqxx /=.
    exists (t_x s ++ drop (size (t_time s)) tx), (t_v s ++ drop (size (t_time s)) tx); split=> //.
    by rewrite !size_cat !size_drop !size_nseq s1 s2; slia.
  by move=> n0; exists tx, tx; rewrite size_nseq.
rewrite Ei /=; have n0n : (history_len x0 <= n)%N by slia.
have [E -> [sE HE]] := fill_evals sx sv n0n; rewrite /=.
case: ltnP => [h1|h1]; first by rewrite mem_int_red_short // k1 orbT.
have h2 : history_len x0 = 1%N by slia.
rewrite h2 /= (rdE (0 : row)); last by rewrite sx; slia.
rewrite /= (rdE (0 : row)); last by rewrite sv; slia.
rewrite /= /for_ /=.
case Em : (n - 1)%N => [|m]; first by slia.
rewrite /= /run_step /= (rdE (0 : 'rV[R]_N)); last by rewrite sE; slia.
by rewrite /= mem_int_red_short // k1 orbT.
Qed.

End Run.

(** ** Ballistic motion *)
Section Ballistic.
Variables (R : realFieldType) (d N Nf : nat) (I : integrator R d N Nf) (f : 'rV[R]_d).
Local Notation dt := (i_dt I).
Hypotheses (Hforce : forall x, i_basis I x *m i_force I = f).
Hypotheses (Hker : forall k, k \in i_kernel I -> k = 0).

Lemma ker0 j : (i_kernel I)`_j = 0.
Proof.
have [lt|ge] := ltnP j (size (i_kernel I)); last by rewrite nth_default.
by apply/Hker/mem_nth.
Qed.

Lemma memory0 s : memory_of dt (i_kernel I) s = 0.
Proof.
rewrite /memory_of /trapz_rule big1 ?scaler0 // => j _.
by rewrite /mem_integrand !ker0 !mulmx0 addr0 scaler0.
Qed.

Add Field RF : (mc_field_theory R).

Lemma rk4_const acc (x v a : 'rV[R]_d) : (forall t y w, acc t y w = a) ->
  rk4 dt acc x v = (x + dt *: v + (dt ^+ 2 / 2%:R) *: a, v + dt *: a).
Proof.
move=> H; rewrite /rk4 !H.
have E6 : a + 2%:R *: a + 2%:R *: a + a = 6%:R *: a by rewrite !scaler_nat; abel.
have Ev : v + 2%:R *: (v + (dt / 2%:R) *: a) + 2%:R *: (v + (dt / 2%:R) *: a) + (v + dt *: a)
   = 6%:R *: v + (3%:R * dt) *: a.
  rewrite !scalerDr !scalerA [2%:R * (dt / _)]mulrC divfK ?pnatr_eq0 //.
  have -> : (3%:R * dt) *: a = (dt *: a) *+ 3 by rewrite mulr_natl scalerMnl.
  by rewrite !scaler_nat; abel.
congr (_, _); last by rewrite E6 scalerA divfK // pnatr_eq0.
rewrite Ev scalerDr !scalerA divfK ?pnatr_eq0 // addrA; congr (_ + _ *: _).
have -> : 6%:R = 3%:R * 2%:R :> R by rewrite -natrM.
by rewrite invfM -!mulrA; congr (_ * _); rewrite mulrCA !mulrA mulfVK ?pnatr_eq0 // mulrC.
Qed.

Lemma ballistic_step X V i : follows I (fun=> 0) X V i ->
  X`_i = X`_i.-1 + dt *: V`_i.-1 + (dt ^+ 2 / 2%:R) *: f /\ V`_i = V`_i.-1 + dt *: f.
Proof.
rewrite /follows (@rk4_const _ _ _ f); last first.
  move=> t y w; rewrite /acceleration /start_memory !memory0 Hforce !addr0 add0r.
  by case: eqP => _; rewrite ?ker0 ?mulmx0 !scaler0 ?addr0 oppr0 addr0.
by case=> -> ->.
Qed.

Lemma ballistic n x0 gen t : (1 < size (i_kernel I))%N -> history_ok I n x0 ->
  run I n x0 true gen = Ok t ->
  let n0 := history_len x0 in
  forall k, (n0.-1 + k < n)%N ->
    (t_x t)`_(n0.-1 + k) = history_x x0 n0.-1 + (k%:R * dt) *: history_v x0 n0.-1
                            + ((k%:R * dt) ^+ 2 / 2%:R) *: f /\
    (t_v t)`_(n0.-1 + k) = history_v x0 n0.-1 + (k%:R * dt) *: f.
Proof.
move=> k1 Hx Et n0; have [t' Et' [_ _ Hin Hf]] := @runE R d N Nf I n x0 true gen k1 Hx isT.
have Ett : t = t' by move: Et; rewrite Et' => -[].
rewrite {}Ett in Et *.
have n00 : (0 < n0)%N by rewrite /n0; case: x0 Hx {Et Et' Hin Hf n0} => [s|] //= [_ /andP[]].
elim=> [|k IH] lk.
  by rewrite addn0 !mul0r !scale0r !addr0 expr2 !mul0r scale0r addr0; apply: Hin; rewrite -/n0; slia.
have [|Ex Ev] := IH; first by slia.
have [|{}Ex' Ev'] := @ballistic_step (t_x t') (t_v t') (n0.-1 + k.+1) _.
  by apply: Hf; rewrite -/n0; slia.
rewrite Ex' Ev' addnS /= Ex Ev; clear.
have -> : k.+1%:R = k%:R + 1 :> R by rewrite -addn1 natrD.
move: (history_x _ _) (history_v _ _) (k%:R : R) => p q s.
have E2 : (s + 1) * dt = s * dt + dt by rewrite mulrDl mul1r.
split; last by rewrite E2 scalerDl addrA.
have E3 : ((s + 1) * dt) ^+ 2 / 2%:R = (s * dt) ^+ 2 / 2%:R + dt * (s * dt) + dt ^+ 2 / 2%:R.
  rewrite E2 sqrrD 2!mulrDl; congr (_ + _ + _).
  by rewrite -(mulr_natr (s * dt * dt) 2) mulfK ?pnatr_eq0 // mulrC.
by rewrite E3 E2 !scalerDl scalerDr scalerA; abel.
Qed.

End Ballistic.

(** ** Restart points *)
Section Restart.
Variables (R : realFieldType) (d N Nf : nat) (I : integrator R d N Nf).

Lemma initial_conditionsE (xva : traj R d) n_mem point :
  size (t_x xva) = size (t_time xva) -> size (t_v xva) = size (t_time xva) ->
  (n_mem <= point < size (t_time xva))%N ->
  exists2 s, initial_conditions I xva n_mem point = Ok s &
    [/\ t_time s = mkseq (fun i => i%:R * i_dt I) n_mem.+1,
        size (t_x s) = n_mem.+1, size (t_v s) = n_mem.+1
      & forall i, (i <= n_mem)%N -> (t_x s)`_i = (t_x xva)`_(point - n_mem + i)
                                 /\ (t_v s)`_i = (t_v xva)`_(point - n_mem + i)].
Proof.
move=> sx sv rp; rewrite /initial_conditions rp sx sv !eqxx /=; eexists; first reflexivity.
rewrite /= !size_drop !size_takel ?sx ?sv; [|slia|slia]; split=> //; try slia.
by move=> i li; rewrite !nth_drop !nth_take //; slia.
Qed.

Lemma initial_history (xva : traj R d) n_mem point s n : (n_mem < n)%N ->
  initial_conditions I xva n_mem point = Ok s -> history_ok I n (Some s).
Proof.
move=> ln; rewrite /initial_conditions => H; unbind H u1 G1; unbind H u2 G2; case: H => <-.
move: G1; rewrite /guard; case: ifP => // rp _; move: G2; rewrite /guard; case: ifP => // /andP[/eqP sx /eqP sv] _.
rewrite /history_ok [t_time _]/= [t_x _]/= [t_v _]/= !size_mkseq !size_drop !size_takel ?sx ?sv; [|slia|slia].
by split=> //; slia.
Qed.
End Restart.
