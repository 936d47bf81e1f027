(** * [BGLEIntegrator]: one step and whole runs, gle_integrate.py:389-466.

    One dimension; kernel and trajectories are vectors ([_mem_int_red] and [f_rk] are
    [bgle_mem] and [bgle_f] of Integrator.v).  [dU] reshapes the position: a Python float has
    no such method, an array or a numpy scalar has.  [noise] is the array of one value per
    step (zeros, given, or generated).  A failed [assert] is written [ValueError]. *)
From mathcomp Require Import all_ssreflect all_algebra.
From Verif Require Import Base Integrator.
Set Implicit Arguments.
Unset Strict Implicit.
Unset Printing Implicit Defensive.
Import GRing.Theory.
Local Open Scope ring_scope.

Section Bgle.
Variables (R : realFieldType) (K : seq R) (dt : R) (force : R -> R).

(** Lines 409-414. *)
Definition bgle_rk (x v rmi fr last_v last_rmi : R) : res (R * R * R) :=
  let f := bgle_f K dt force in
  let! k1 := f x v rmi fr 0 1 last_v last_rmi in
  let! k2 := f (x + k1.1 * dt / 2%:R) (v + k1.2 * dt / 2%:R) rmi fr 2^-1 2^-1 last_v last_rmi in
  let! k3 := f (x + k2.1 * dt / 2%:R) (v + k2.2 * dt / 2%:R) rmi fr 2^-1 2^-1 last_v last_rmi in
  let! k4 := f (x + k3.1 * dt) (v + k3.2 * dt) rmi fr 1 0 last_v last_rmi in
  Ok (x + dt * (k1.1 + 2%:R * k2.1 + 2%:R * k3.1 + k4.1) / 6%:R,
      v + dt * (k1.2 + 2%:R * k2.2 + 2%:R * k3.2 + k4.2) / 6%:R,
      (k1.2 + 2%:R * k2.2 + 2%:R * k3.2 + k4.2) / 6%:R).

Record bstate := BSt { bs_x : seq R; bs_v : seq R; bs_a : seq R; bs_mem : seq R; bs_rmi : R; bs_cx : R; bs_cv : R }.

(** Lines 451-464. *)
Definition bgle_step (noise : seq R) (ind : nat) (s : bstate) : res bstate :=
  let! m := (if (1 < ind)%N then
               let! rmi := bgle_mem K dt (take ind (bs_v s)) in
               let! last_v := rd (bs_v s) ind.-1 in
               Ok (rmi, bs_rmi s, last_v)
             else Ok (0, 0, 0)) in
  let: (rmi, last_rmi, last_v) := m in
  let! fr := rd noise ind in
  let! r := bgle_rk (bs_cx s) (bs_cv s) rmi fr last_v last_rmi in
  let: (x, v, a) := r in
  let! tv := wr (bs_v s) ind v in
  let! tx := wr (bs_x s) ind x in
  let! ta := wr (bs_a s) ind a in
  let! tm := wr (bs_mem s) ind rmi in
  Ok (BSt tx tv ta tm rmi x v).

(** Lines 430-442, the two [_predef_] arguments.  Index -1 is the last entry. *)
Definition bgle_predef (n n0 : nat) (c : R) (p : option (seq R)) : res (seq R) :=
  if p is Some s then
    let! _ := guard (size s == n) ValueError in
    let! y := rd s (if n0 is m.+1 then m else n.-1) in
    let! _ := guard (y == c) ValueError in
    Ok s
  else Ok (nseq n 0).

(** Lines 416-466: positions, velocities, times, memory, accelerations.  [array_x]: the
    initial position is an array or a numpy scalar. *)
Definition bgle_integrate (n n0 : nat) (array_x : bool) (x0 v0 : R) (noise : seq R) (px pv : option (seq R))
    : res (seq R * seq R * seq R * seq R * seq R) :=
  let! _ := guard (size noise == n) ValueError in
  let! tv := bgle_predef n n0 v0 pv in
  let! tx := bgle_predef n n0 x0 px in
  let t := mkseq (fun i => i%:R * dt) n in
  let! tv := wr tv n0 v0 in
  let! tx := wr tx n0 x0 in
  let! _ := guard (array_x || (n <= n0.+1)%N) AttributeError in
  let! s := for_ n0.+1 n (bgle_step noise) (BSt tx tv (nseq n 0) (nseq n 0) 0 x0 v0) in
  Ok (bs_x s, bs_v s, t, bs_mem s, bs_a s).

End Bgle.
