(** * C69: runs of [BGLEIntegrator]. *)
From mathcomp Require Import all_ssreflect all_algebra.
From Verif Require Import Base Tactics Quadrature Integrator IntegratorProofs IntegratorProofs2 Bgle BgleProofs.
Set Implicit Arguments.
Unset Strict Implicit.
Unset Printing Implicit Defensive.
Import Order.TTheory GRing.Theory Num.Theory.
Local Open Scope ring_scope.

(** A run succeeds for every kernel of two samples or more, and gives trajectories of the
    requested length, the initial data at [n0], the given history before it, and after it one
    Runge-Kutta step per sample, with the memory interpolated between the two ends of the
    step; the accelerations are the velocity increments over [dt]. *)
Theorem C69_run_partial (R : realFieldType) (K : seq R) (dt : R) (force : R -> R) n n0 array_x x0 v0 noise px pv :
  (1 < size K)%N -> (n0 < n)%N -> size noise = n -> predef_ok n n0 x0 px -> predef_ok n n0 v0 pv ->
  array_x || (n <= n0.+1)%N ->
  exists X V T M A, bgle_integrate K dt force n n0 array_x x0 v0 noise px pv = Ok (X, V, T, M, A) /\
  [/\ [/\ size X = n, size V = n, size T = n, size M = n & size A = n],
      forall i, (i < n)%N -> T`_i = i%:R * dt,
      X`_n0 = x0 /\ V`_n0 = v0,
      (forall i, (i < n0)%N -> X`_i = predef_at px i /\ V`_i = predef_at pv i)
      /\ (forall i, (i <= n0)%N -> M`_i = 0 /\ A`_i = 0)
    & forall i, (n0 < i < n)%N ->
      [/\ bgle_follows K dt force n0 noise X V i, V`_i - V`_i.-1 = dt * A`_i
        & forall e, M`_i + lag0_memory K dt e = end_memory K dt V i e]].
Proof. exact: bgle_run. Qed.

(** Without memory, force and noise the particle moves at constant speed. *)
Theorem C69_ballistic (R : realFieldType) (K : seq R) (dt : R) n x0 v0 :
  (1 < size K)%N -> (forall i, K`_i = 0) -> (0 < n)%N ->
  exists X V T M A, bgle_integrate K dt (fun=> 0) n 0 true x0 v0 (nseq n 0) None None = Ok (X, V, T, M, A) /\
  [/\ size X = n, size V = n
    & forall i, (i < n)%N -> [/\ X`_i = x0 + i%:R * dt * v0, V`_i = v0, M`_i = 0 & A`_i * dt = 0]].
Proof. exact: bgle_ballistic. Qed.

(** The documented default initial position, a Python float, is refused as soon as there is
    a step to make. *)
Theorem C69_float_position (R : realFieldType) (K : seq R) (dt : R) (force : R -> R) n n0 x0 v0 noise px pv :
  (n0.+1 < n)%N -> size noise = n -> predef_ok n n0 x0 px -> predef_ok n n0 v0 pv ->
  bgle_integrate K dt force n n0 false x0 v0 noise px pv = Err AttributeError.
Proof. exact: bgle_float. Qed.

(** FALSE: continuing a run from its history gives the uninterrupted run.  The last sample
    of the history is written a second time at index [n0]. *)
Theorem C69_restart_refuted (R : realFieldType) :
  exists (K : seq R) (dt : R) (force : R -> R) n n0 x0 v0 noise X V T M A,
  [/\ (1 < size K)%N, (0 < n0 < n)%N, 0 < dt, size noise = n
    & bgle_integrate K dt force n 0 true x0 v0 noise None None = Ok (X, V, T, M, A)] /\
  exists X' V' T' M' A',
    bgle_integrate K dt force n n0 true X`_n0.-1 V`_n0.-1 noise (Some X) (Some V) = Ok (X', V', T', M', A')
    /\ X' <> X.
Proof. exact: bgle_restart. Qed.

(** Every restart duplicates that sample. *)
Theorem C69_restart_repeats (R : realFieldType) (K : seq R) (dt : R) (force : R -> R) n n0 noise (hx hv : seq R) :
  (1 < size K)%N -> (0 < n0 < n)%N -> size noise = n -> size hx = n -> size hv = n ->
  exists X V T M A,
    bgle_integrate K dt force n n0 true hx`_n0.-1 hv`_n0.-1 noise (Some hx) (Some hv) = Ok (X, V, T, M, A) /\
    X`_n0 = X`_n0.-1 /\ V`_n0 = V`_n0.-1.
Proof. exact: bgle_repeats. Qed.

(** FALSE: each step interpolates between the memory of the past velocities at its start and
    at its end.  At the start of the second step only the term of lag zero is counted. *)
Theorem C69_memory_refuted (R : realFieldType) :
  exists (K : seq R) (dt : R) x0 v0 X V T M A,
  [/\ (1 < size K)%N, 0 < dt,
      bgle_integrate K dt (fun=> 0) 3 0 true x0 v0 (nseq 3 0) None None = Ok (X, V, T, M, A)
    & (X`_2, V`_2) <> rk4s dt (acceleration (fun=> 0) 0 (scalar_memory K dt (take 2 V))
                                (fun e => scalar_memory K dt (rcons (take 2 V) e))) X`_1 V`_1].
Proof. exact: bgle_start_memory. Qed.

Example C69_example (R : realFieldType) :
  exists X V T M A, bgle_integrate [:: 0; 0 : R] 1 (fun=> 0) 3 0 true 0 1 (nseq 3 0) None None = Ok (X, V, T, M, A) /\
  X`_2 = 2%:R /\ V`_2 = 1.
Proof. exact: bgle_ex. Qed.

Print Assumptions C69_run_partial.
Print Assumptions C69_ballistic.
Print Assumptions C69_float_position.
Print Assumptions C69_restart_refuted.
Print Assumptions C69_restart_repeats.
Print Assumptions C69_memory_refuted.
