(** * Properties C43, C44, C55 and C56: time integration. *)
From mathcomp Require Import all_ssreflect all_algebra.
From mathcomp Require Import zify.
From Verif Require Import Base FKernel Quadrature MemorySpec Integrator IntegratorProofs IntegratorProofs2 Mx11 IntegratorWitness.
Set Implicit Arguments.
Unset Strict Implicit.
Unset Printing Implicit Defensive.
Import Order.TTheory GRing.Theory Num.Theory.
Local Open Scope ring_scope.

(** ** C43 *)

(** The running integral completed by the newest sample is the truncated trapezoid rule. *)
Theorem C43_memory_partial (R : realFieldType) (d N Nf : nat) (I : integrator R d N Nf) (E : seq 'rV[R]_N) :
  (0 < size E)%N -> (1 < size (i_kernel I))%N ->
  exists2 r, mem_int_red I E = Ok r &
    forall e, r + (2^-1 * i_dt I) *: (e *m (i_kernel I)`_0) =
      trapz_rule (i_dt I) (fun s => (rcons E e)`_(size E - s) *m (i_kernel I)`_s)
                 (minn (size E) (size (i_kernel I)).-1).
Proof.
move=> s0 k1; have [r Er H] := mem_int_redE s0 k1; exists r => // e.
by rewrite H /memory_of size_rcons.
Qed.
Print Assumptions C43_memory_partial.

(** Whole runs: every new sample is a Runge-Kutta step in which the memory at both ends of
    the step is the truncated trapezoid rule over the samples of the returned trajectory;
    the first step of a run with a single initial sample has an extra half weight. *)
Theorem C43_run_partial (R : realFieldType) (d N Nf : nat) (I : integrator R d N Nf) n x0 zero gen :
  (1 < size (i_kernel I))%N -> history_ok I n x0 -> zero || (n <= size gen)%N ->
  exists2 t, run I n x0 zero gen = Ok t &
    forall i, (history_len x0 <= i < n)%N ->
      let E := evals I (t_x t) (t_v t) i in
      ((t_x t)`_i, (t_v t)`_i) =
      rk4 (i_dt I)
        (fun theta x v => i_basis I x *m i_force I + (if zero then 0 else gen`_i)
           - ((1 - theta) *: (memory_of (i_dt I) (i_kernel I) E
                 + (if i == 1%N then (2^-1 * i_dt I) *: (i_evec I (t_x t)`_0 (t_v t)`_0 *m (i_kernel I)`_0) else 0))
              + theta *: memory_of (i_dt I) (i_kernel I) (rcons E (i_evec I x v))))
        (t_x t)`_i.-1 (t_v t)`_i.-1.
Proof. by move=> k1 Hx Hn; have [t Et [_ _ _ H]] := runE k1 Hx Hn; exists t => // i /H. Qed.
Print Assumptions C43_run_partial.

(** Same memory as the noise extraction while the trajectory is not longer than the kernel. *)
Theorem C43_noise_partial (R : realFieldType) (d N : nat) (dt : R) (K : seq 'M[R]_(N, d)) (E : seq 'rV[R]_N) mem i :
  (0 < size K)%N -> (0 < i < size E)%N -> (i < size K)%N ->
  memory_trapz dt K E = Ok mem -> mem`_i = - memory_of dt K (take i.+1 E).
Proof.
move=> k0 ri iK Em; rewrite (noise_memory k0 ri Em) ifF ?addr0 //.
by apply/negbTE; rewrite -leqNgt; case: (size K) k0 iK.
Qed.
Print Assumptions C43_noise_partial.

Theorem C43_noise_refuted (R : realFieldType) : exists (K E mem : seq 'M[R]_1) (i : nat),
  [/\ (1 < size K)%N, (0 < i < size E)%N, memory_trapz 1 K E = Ok mem
    & mem`_i <> - memory_of 1 K (take i.+1 E)].
Proof. exact: noise_memory_refuted. Qed.
Print Assumptions C43_noise_refuted.

Theorem C43_first_step_refuted (R : realFieldType) : exists (I : integrator R 1 1 1) n x0 t,
  [/\ (1 < size (i_kernel I))%N, history_ok I n x0, run I n x0 true [::] = Ok t
    & ~ forall i, (history_len x0 <= i < n)%N ->
        let E := evals I (t_x t) (t_v t) i in
        ((t_x t)`_i, (t_v t)`_i) =
        rk4 (i_dt I)
          (fun theta x v => i_basis I x *m i_force I + 0
             - ((1 - theta) *: memory_of (i_dt I) (i_kernel I) E
                + theta *: memory_of (i_dt I) (i_kernel I) (rcons E (i_evec I x v))))
          (t_x t)`_i.-1 (t_v t)`_i.-1].
Proof. exact: first_step_refuted. Qed.
Print Assumptions C43_first_step_refuted.

(** ** C44 *)
Theorem C44_run_partial (R : realFieldType) (d N Nf : nat) (I : integrator R d N Nf) n x0 zero gen :
  (1 < size (i_kernel I))%N -> history_ok I n x0 -> zero || (n <= size gen)%N ->
  exists2 t, run I n x0 zero gen = Ok t &
    [/\ size (t_time t) = n /\ size (t_x t) = n /\ size (t_v t) = n
      & forall i, (i < history_len x0)%N -> (t_x t)`_i = history_x x0 i /\ (t_v t)`_i = history_v x0 i].
Proof. by move=> k1 Hx Hn; have [t Et [? _ ? _]] := runE k1 Hx Hn; exists t. Qed.
Print Assumptions C44_run_partial.

(** The generator is not used when the noise is switched off. *)
Theorem C44_deterministic (R : realFieldType) (d N Nf : nat) (I : integrator R d N Nf) n x0 gen gen' :
  run I n x0 true gen = run I n x0 true gen'.
Proof. exact: run_zero. Qed.
Print Assumptions C44_deterministic.

Theorem C44_ballistic (R : realFieldType) (d N Nf : nat) (I : integrator R d N Nf) (f : 'rV[R]_d) n x0 gen t :
  (forall x, i_basis I x *m i_force I = f) -> (forall k, k \in i_kernel I -> k = 0) ->
  (1 < size (i_kernel I))%N -> history_ok I n x0 -> run I n x0 true gen = Ok t ->
  let n0 := history_len x0 in
  forall k, (n0.-1 + k < n)%N ->
    (t_x t)`_(n0.-1 + k) = history_x x0 n0.-1 + (k%:R * i_dt I) *: history_v x0 n0.-1
                            + ((k%:R * i_dt I) ^+ 2 / 2%:R) *: f /\
    (t_v t)`_(n0.-1 + k) = history_v x0 n0.-1 + (k%:R * i_dt I) *: f.
Proof. by move=> Hf Hk k1 Hx Et n0 k lk; exact: (ballistic Hf Hk k1 Hx Et lk). Qed.
Print Assumptions C44_ballistic.

(** A kernel with one sample is never integrated, whatever the history. *)
Theorem C44_one_lag_kernel_refuted (R : realFieldType) (d N Nf : nat) (I : integrator R d N Nf) n x0 zero gen :
  (size (i_kernel I) <= 1)%N -> history_ok I n x0 -> zero || (n <= size gen)%N -> (1 < n)%N ->
  run I n x0 zero gen = Err OutOfBounds.
Proof. exact: run_short. Qed.
Print Assumptions C44_one_lag_kernel_refuted.

(** Unit force from rest, three samples. *)
Example C44_example (R : realFieldType) : let I := falling R in
  [/\ forall x, i_basis I x *m i_force I = 1%:M, forall k, k \in i_kernel I -> k = 0, (1 < size (i_kernel I))%N,
      history_ok I 3 None & exists2 t, run I 3 None true [::] = Ok t & (t_x t)`_2 = 2%:R%:M].
Proof. exact: falling_ok. Qed.

(** ** C55 *)
Theorem C55_times_partial (R : realFieldType) (d N Nf : nat) (I : integrator R d N Nf) n x0 zero gen :
  (1 < size (i_kernel I))%N -> history_ok I n x0 -> zero || (n <= size gen)%N ->
  exists2 t, run I n x0 zero gen = Ok t &
    (forall i, (i < n)%N -> (t_time t)`_i = (history_len x0 - 1 + i)%N%:R * i_dt I) /\
    (history_len x0 = 1%N -> t_time t = mkseq (fun i => i%:R * i_dt I) n).
Proof.
move=> k1 Hx Hn; have [t Et [[s1 _] H _ _]] := runE k1 Hx Hn; exists t => //; split=> // h1.
apply: (@eq_from_nth _ 0); rewrite ?size_mkseq // s1 => i li.
by rewrite H // nth_mkseq // h1.
Qed.
Print Assumptions C55_times_partial.

Theorem C55_restart_points (R : realFieldType) (d N Nf : nat) (I : integrator R d N Nf) (xva : traj R d) n_mem point :
  size (t_x xva) = size (t_time xva) -> size (t_v xva) = size (t_time xva) ->
  (n_mem <= point < size (t_time xva))%N ->
  exists2 s, initial_conditions I xva n_mem point = Ok s &
    [/\ t_time s = mkseq (fun i => i%:R * i_dt I) n_mem.+1,
        forall i, (i <= n_mem)%N -> (t_x s)`_i = (t_x xva)`_(point - n_mem + i)
                                 /\ (t_v s)`_i = (t_v xva)`_(point - n_mem + i)
      & forall n, (n_mem < n)%N -> history_ok I n (Some s)].
Proof.
move=> sx sv rp; have [s Es [? ? ? ?]] := initial_conditionsE I sx sv rp; exists s => //; split=> //.
by move=> n ln; apply: initial_history Es.
Qed.
Print Assumptions C55_restart_points.

(** With two or more initial samples the returned times are never those of the history. *)
Theorem C55_times_refuted (R : realFieldType) (d N Nf : nat) (I : integrator R d N Nf) n s zero gen t :
  (1 < size (i_kernel I))%N -> i_dt I != 0 -> history_ok I n (Some s) -> zero || (n <= size gen)%N ->
  (1 < size (t_time s))%N -> run I n (Some s) zero gen = Ok t ->
  (t_time s)`_0 = 0 /\ (t_time t)`_0 <> (t_time s)`_0.
Proof. exact: times_shifted. Qed.
Print Assumptions C55_times_refuted.

Example C55_example (R : realFieldType) :
  let s := Traj [:: 0; 1] [:: 0; 1%:M] [:: 1%:M; 1%:M] in
  i_dt (falling R) != 0 /\ history_ok (falling R) 4 (Some s).
Proof. by split; [exact: oner_neq0 | split=> //=; rewrite /mkseq /= mul0r mulr1]. Qed.

(** ** C56 *)
Theorem C56_memory_partial (R : realFieldType) (K : seq R) (dt : R) (v : seq R) (e : R) :
  (0 < size v)%N -> (1 < size K)%N ->
  exists2 r, bgle_mem K dt v = Ok r &
    r + 2^-1 * dt * (K`_0 * e)
    = scalar_memory K dt (rcons v e)
      + (if (size v < (size K).-1)%N then 2^-1 * dt * (K`_(size v) * v`_0) else 0).
Proof. exact: bgle_memory. Qed.
Print Assumptions C56_memory_partial.

Theorem C56_memory_refuted (R : realFieldType) : exists (K v : seq R) (e r : R),
  [/\ (0 < size v)%N, (1 < size K)%N, bgle_mem K 1 v = Ok r
    & r + 2^-1 * 1 * (K`_0 * e) <> scalar_memory K 1 (rcons v e)].
Proof. exact: bgle_refuted. Qed.
Print Assumptions C56_memory_refuted.

(** The hypotheses of C43 and C56 on concrete data. *)
Example C43_example (R : realFieldType) :
  [/\ (1 < size (i_kernel (braking R)))%N, history_ok (braking R) 2 (Some (moving R))
    & exists2 r, mem_int_red (braking R) [:: 1%:M] = Ok r & r = 0].
Proof.
split=> //; first by split=> //=; rewrite /mkseq /= mul0r.
have [//|//|r Er H] := @mem_int_redE R 1 1 1 (braking R) [:: 1%:M]; exists r => //.
have := H 0; rewrite mul0mx scaler0 addr0 => ->.
by rewrite /memory_of /trapz_rule /= big_ord1 /mem_integrand /= mul0mx mulmx0 addr0 !scaler0.
Qed.

Example C56_example (R : realFieldType) :
  exists2 r, bgle_mem [:: 1; 1; 1] 1 [:: 1; 1; 1] = Ok r & r + 2^-1 * 1 * 1 = 2%:R :> R.
Proof.
have [//|//|r Er H] := @bgle_memory R [:: 1; 1; 1] 1 [:: 1; 1; 1] 1; exists r => //.
move: H; rewrite /= mulr1 => ->; rewrite addr0 (@scalar_memoryE R [:: 1; 1; 1] 1 [:: 1; 1; 1] 1) //=.
rewrite /minn /= big_nat1 /= !mulr1 addrAC.
have -> : (2^-1 + 2^-1 : R) = 1 by rewrite [RHS](splitr 1) !mul1r.
by rewrite [RHS]mulrS mulr1n.
Qed.
