(** * [BGLEIntegrator]: specification and proofs. *)
From mathcomp Require Import all_ssreflect all_algebra.
From mathcomp Require Import zify.
From Verif Require Import Base Tactics FKernel Quadrature Integrator IntegratorProofs IntegratorProofs2 Bgle.
Set Implicit Arguments.
Unset Strict Implicit.
Unset Printing Implicit Defensive.
Import Order.TTheory GRing.Theory Num.Theory.
Local Open Scope ring_scope.

Section Spec.
Variables (R : realFieldType) (K : seq R) (dt : R) (force : R -> R).

(** One step of the classical Runge-Kutta method for [x' = v, v' = acc theta x v]. *)
Definition rk4s (h : R) (acc : R -> R -> R -> R) (x v : R) : R * R :=
  let: (dx1, dv1) := (v, acc 0 x v) in
  let: (dx2, dv2) := (v + h / 2%:R * dv1, acc 2^-1 (x + h / 2%:R * dx1) (v + h / 2%:R * dv1)) in
  let: (dx3, dv3) := (v + h / 2%:R * dv2, acc 2^-1 (x + h / 2%:R * dx2) (v + h / 2%:R * dv2)) in
  let: (dx4, dv4) := (v + h * dv3, acc 1 (x + h * dx3) (v + h * dv3)) in
  (x + h / 6%:R * (dx1 + 2%:R * dx2 + 2%:R * dx3 + dx4),
   v + h / 6%:R * (dv1 + 2%:R * dv2 + 2%:R * dv3 + dv4)).

(** Force, noise, and memory interpolated between the two ends of the step. *)
Definition acceleration (fr M0 : R) (M1 : R -> R) (theta x v : R) : R :=
  force x + fr - ((1 - theta) * M0 + theta * M1 v).

(** Half a weight too much on the first velocity while the history is shorter than the
    kernel (C56). *)
Definition excess (V : seq R) (i : nat) : R :=
  if (i < (size K).-1)%N then 2^-1 * dt * (K`_i * V`_0) else 0.

(** Memory after the velocities [V_0, ..., V_(i-1), e]. *)
Definition full_memory (V : seq R) (i : nat) (e : R) : R := scalar_memory K dt (rcons (take i V) e) + excess V i.
Definition lag0_memory (e : R) : R := 2^-1 * dt * (K`_0 * e).

(** Memory at the end of step [i], and at its start, for a run beginning at index [n0]: the
    history before [n0] is not used at the start of the first step. *)
Definition end_memory (V : seq R) (i : nat) (e : R) : R := if i == 1%N then lag0_memory e else full_memory V i e.
Definition begin_memory (n0 : nat) (V : seq R) (i : nat) : R :=
  if i == 1%N then 0 else
  if (i.-1 <= maxn 1 n0)%N then lag0_memory V`_i.-1 else full_memory V i.-1 V`_i.-1.

Definition bgle_follows (n0 : nat) (noise X V : seq R) (i : nat) : Prop :=
  (X`_i, V`_i) = rk4s dt (acceleration noise`_i (begin_memory n0 V i) (end_memory V i)) X`_i.-1 V`_i.-1.

(** Arguments for which a run is possible. *)
Definition predef_ok (n n0 : nat) (c : R) (p : option (seq R)) : Prop :=
  if p is Some s then size s = n /\ s`_(if n0 is m.+1 then m else n.-1) = c else True.
Definition predef_at (p : option (seq R)) (i : nat) : R := if p is Some s then s`_i else 0.

End Spec.
Arguments rk4s : simpl never.

Local Lemma bindOk (A B : Type) (a : A) (f : A -> res B) : bind (Ok a) f = f a.
Proof. by []. Qed.

Section Proofs.
Variables (R : realFieldType) (K : seq R) (dt : R) (force : R -> R).
Add Field RF : (mc_field_theory R).
Local Ltac rng := fold_ring (Num.RealField.fieldType R); ring.
Implicit Types (X V : seq R).

Lemma bgle_rkE x v rmi fr last_v last_rmi : (0 < size K)%N ->
  let xv := rk4s dt (acceleration force fr (last_rmi + lag0_memory K dt last_v)
                 (fun e => rmi + lag0_memory K dt e)) x v in
  exists2 a, bgle_rk K dt force x v rmi fr last_v last_rmi = Ok (xv, a) & xv.2 - v = dt * a.
Proof.
move=> k0; rewrite /bgle_rk /bgle_f (rdE 0 k0) /= /rk4s /acceleration /lag0_memory /=.
have h : 1 - 2^-1 = 2^-1 :> R by rewrite {1}(splitr 1) mul1r addrK.
rewrite h; move: (2^-1 : R) {h} => c; move: (6%:R^-1 : R) => s6.
have e1 y : dt * c * y = y * dt * c by rng.
have E0 y w : - 0 * rmi - 1 * last_rmi - c * 0 * K`_0 * w * dt - c * 1 * K`_0 * last_v * dt + force y + fr
   = force y + fr - ((1 - 0) * (last_rmi + c * dt * (K`_0 * last_v)) + 0 * (rmi + c * dt * (K`_0 * w))).
  by rng.
have Eh y w : - c * rmi - c * last_rmi - c * c * K`_0 * w * dt - c * c * K`_0 * last_v * dt + force y + fr
   = force y + fr - (c * (last_rmi + c * dt * (K`_0 * last_v)) + c * (rmi + c * dt * (K`_0 * w))).
  by rng.
have E1 y w : - 1 * rmi - 0 * last_rmi - c * 1 * K`_0 * w * dt - c * 0 * K`_0 * last_v * dt + force y + fr
   = force y + fr - ((1 - 1) * (last_rmi + c * dt * (K`_0 * last_v)) + 1 * (rmi + c * dt * (K`_0 * w))).
  by rng.
rewrite !e1 !E0 !Eh !E1 ![_ * dt]mulrC.
eexists; first by congr (Ok (_ + _, _ + _, _)); exact: mulrAC.
by rewrite /= [v + _]addrC addrK -mulrA [s6 * _]mulrC.
Qed.

Lemma begin_memory_ext n0 V V' i : (0 < i)%N -> (forall j, (j < i)%N -> V`_j = V'`_j) ->
  (i <= size V)%N -> (i <= size V')%N ->
  begin_memory K dt n0 V i = begin_memory K dt n0 V' i /\ end_memory K dt V i =1 end_memory K dt V' i.
Proof.
move=> i0 H s1 s2.
have tk j : (j <= i)%N -> take j V = take j V'.
  move=> ji; have a1 := leq_trans ji s1; have a2 := leq_trans ji s2.
  by apply: (@eq_from_nth _ 0); rewrite !size_takel // => k kj; rewrite !nth_take //; apply: H; lia.
split=> [|e]; rewrite /begin_memory /end_memory /full_memory /excess ?tk // ?H //; lia.
Qed.

Section Loop.
Variables (n n0 : nat) (noise X0 V0 : seq R).
Hypotheses (k1 : (1 < size K)%N) (n0n : (n0 < n)%N) (sn : size noise = n).
Hypotheses (sX0 : size X0 = n) (sV0 : size V0 = n).

Definition inv i (s : bstate R) : Prop :=
  [/\ [/\ size (bs_x s) = n, size (bs_v s) = n, size (bs_a s) = n & size (bs_mem s) = n],
      forall j, (j <= n0)%N ->
        [/\ (bs_x s)`_j = X0`_j, (bs_v s)`_j = V0`_j, (bs_a s)`_j = 0 & (bs_mem s)`_j = 0],
      bs_cx s = (bs_x s)`_i.-1 /\ bs_cv s = (bs_v s)`_i.-1,
      (i.-1 <= maxn 1 n0)%N -> bs_rmi s = 0
    & [/\ forall e, (maxn 1 n0 < i.-1)%N -> bs_rmi s + lag0_memory K dt e = full_memory K dt (bs_v s) i.-1 e,
          forall j, (n0 < j < i)%N -> bgle_follows K dt force n0 noise (bs_x s) (bs_v s) j
        & forall j, (n0 < j < i)%N -> (bs_v s)`_j - (bs_v s)`_j.-1 = dt * (bs_a s)`_j /\
            forall e, (bs_mem s)`_j + lag0_memory K dt e = end_memory K dt (bs_v s) j e]].

Lemma loop_ok : exists2 s,
  for_ n0.+1 n (bgle_step K dt force noise) (BSt X0 V0 (nseq n 0) (nseq n 0) 0 X0`_n0 V0`_n0) = Ok s & inv n s.
Proof.
apply: (@for_ind _ inv) => //.
  split; rewrite ?size_nseq //=; last by split=> [e|j|j]; lia.
  by move=> j _; rewrite !nth_nseq !if_same.
move=> i [X V A M rmi cx cv] ri [/= [sX sV sA sM] Hin [Hcx Hcv] r1 [r2 Hf Ha]].
rewrite /bgle_step /=.
pose M0 := begin_memory K dt n0 V i; pose M1 := end_memory K dt V i.
have [rmi' [lr [lv [Em HM0 HM1]]]] : exists rmi' lr lv,
  [/\ (if (1 < i)%N then let! rmi' := bgle_mem K dt (take i V) in
          let! last_v := rd V i.-1 in Ok (rmi', rmi, last_v) else Ok (0, 0, 0)) = Ok (rmi', lr, lv),
      lr + lag0_memory K dt lv = M0
    & (i == 1%N -> rmi' = 0) /\ forall e, rmi' + lag0_memory K dt e = M1 e].
  case: ltnP => i1.
    have st : size (take i V) = i by rewrite size_takel // sV; lia.
    have mm e : exists2 r, bgle_mem K dt (take i V) = Ok r & r + lag0_memory K dt e = full_memory K dt V i e.
      have [||r Er Hr] := @bgle_memory R K dt (take i V) e; rewrite ?st //; first by lia.
      exists r => //; rewrite /lag0_memory Hr /full_memory /excess st; congr (_ + _).
      by case: ifP => // _; rewrite nth_take //; lia.
    have [r Er _] := mm 0; exists r, rmi, V`_i.-1; split.
    - by rewrite Er /= (rdE 0) // sV; lia.
    - rewrite /M0 /begin_memory; case: eqP => [|_]; first by lia.
      case: leqP => c1; first by rewrite (r1 c1) add0r.
      exact: r2.
    - split=> [|e]; first by lia.
      have [r' Er' Hr'] := mm e; have er : r = r' by move: Er'; rewrite Er => -[].
      rewrite er Hr' /M1 /end_memory; case: eqP => //; lia.
  exists 0, 0, 0; have -> : i = 1%N by lia.
  split=> //; rewrite /M0 /M1; have -> : i = 1%N by lia.
    by rewrite /begin_memory /= /lag0_memory !mulr0 add0r.
  by split=> // e; rewrite add0r /end_memory.
rewrite Em /= (rdE 0) /=; last by lia.
have [a -> Da] := bgle_rkE cx cv rmi' noise`_i lv lr (ltnW k1).
move: Da; rewrite HM0; set xv := rk4s _ _ _ _; move=> Da; rewrite bindOk [xv]surjective_pairing.
have Exv : xv = rk4s dt (acceleration force noise`_i M0 M1) cx cv.
  by rewrite /xv /rk4s /acceleration /= !HM1.2.
have iX : (i < size X)%N by lia.
have iV : (i < size V)%N by lia.
have iA : (i < size A)%N by lia.
have iM : (i < size M)%N by lia.
have [V' -> [sV' HV']] := wr_total (0 : R) xv.2 iV.
have [X' -> [sX' HX']] := wr_total (0 : R) xv.1 iX.
have [A' -> [sA' HA']] := wr_total (0 : R) a iA.
have [M' -> [sM' HM']] := wr_total (0 : R) rmi' iM.
rewrite /=; eexists; first reflexivity.
have low j : (j < i)%N -> X`_j = X'`_j /\ V`_j = V'`_j.
  by move=> lj; rewrite HX' HV'; case: eqP => [Ej|//]; lia.
have lowV j : (j < i)%N -> V`_j = V'`_j by move=> /low[].
have ext j : (0 < j <= i)%N -> begin_memory K dt n0 V j = begin_memory K dt n0 V' j /\ end_memory K dt V j =1 end_memory K dt V' j.
  by move=> rj; apply: begin_memory_ext; [lia|move=> k kj; apply: lowV; lia|lia|lia].
split=> /=.
- by rewrite sX' sV' sA' sM'.
- move=> j lj; have [|<- <-] := low j; first by lia.
  by rewrite HA' HM'; case: eqP => [Ej|_]; [lia|apply: Hin].
- by rewrite HX' HV' !eqxx.
- by move=> le; apply: HM1.1; lia.
split=> [e lt|j rj|j rj].
  rewrite HM1.2 /M1 (ext i _).2; last by lia.
  by rewrite /end_memory; case: eqP => //; lia.
  have [lj|nlj] := boolP (j < i)%N.
  have := Hf j; rewrite /bgle_follows => H.
  have [|<- <-] := low j; first by lia.
  have [|<- <-] := low j.-1; first by lia.
  rewrite H; last by lia.
  have [|-> e2] := ext j; first by lia.
  by rewrite /rk4s /acceleration /= !e2.
have -> : j = i by lia.
rewrite /bgle_follows HX' HV' !eqxx -surjective_pairing Exv Hcx Hcv /M0 /M1.
have [|<- <-] := low i.-1; first by lia.
have [|-> e2] := ext i; first by lia.
by rewrite /rk4s /acceleration /= !e2.
have [lj|nlj] := boolP (j < i)%N.
  have [|H1 H2] := Ha j; first by lia.
  have [|_ <-] := low j; first by lia.
  have [|_ <-] := low j.-1; first by lia.
  have [|_ e2] := ext j; first by lia.
  by rewrite HA' HM'; case: eqP => [Ej|_]; [lia|split=> // e; rewrite -e2].
have -> : j = i by lia.
have [|_ <-] := low i.-1; first by lia.
have [|_ e2] := ext i; first by lia.
by rewrite HV' HA' HM' !eqxx -Hcv; split=> // e; rewrite HM1.2 /M1 e2.
Qed.
End Loop.

Lemma predef_run n n0 (c : R) p : (n0 < n)%N -> predef_ok n n0 c p ->
  exists2 s, bgle_predef n n0 c p = Ok s & size s = n /\ forall i, s`_i = predef_at p i.
Proof.
move=> nn; case: p => [s [sz ac]|_] /=; last first.
  by eexists; [reflexivity|rewrite size_nseq; split=> // i; rewrite nth_nseq if_same].
rewrite sz eqxx /= (rdE 0) /=; last by rewrite sz; case: n0 nn {ac}; lia.
by rewrite ac eqxx /=; exists s.
Qed.

Theorem bgle_run n n0 array_x x0 v0 noise px pv :
  (1 < size K)%N -> (n0 < n)%N -> size noise = n -> predef_ok n n0 x0 px -> predef_ok n n0 v0 pv ->
  array_x || (n <= n0.+1)%N ->
  exists X V T M A, bgle_integrate K dt force n n0 array_x x0 v0 noise px pv = Ok (X, V, T, M, A) /\
  [/\ [/\ size X = n, size V = n, size T = n, size M = n & size A = n],
      forall i, (i < n)%N -> T`_i = i%:R * dt,
      X`_n0 = x0 /\ V`_n0 = v0,
      (forall i, (i < n0)%N -> X`_i = predef_at px i /\ V`_i = predef_at pv i)
      /\ (forall i, (i <= n0)%N -> M`_i = 0 /\ A`_i = 0)
    & forall i, (n0 < i < n)%N ->
      [/\ bgle_follows K dt force n0 noise X V i, V`_i - V`_i.-1 = dt * A`_i
        & forall e, M`_i + lag0_memory K dt e = end_memory K dt V i e]].
Proof.
move=> k1 nn sn px_ok pv_ok ar; rewrite /bgle_integrate sn eqxx /=.
have [tv -> [sv Hv]] := predef_run nn pv_ok.
have [tx -> [sx Hx]] := predef_run nn px_ok.
rewrite !bindOk.
have nv : (n0 < size tv)%N by rewrite sv.
have nx : (n0 < size tx)%N by rewrite sx.
have [V0 -> [sV0 HV0]] := wr_total (0 : R) v0 nv.
have [X0 -> [sX0 HX0]] := wr_total (0 : R) x0 nx.
rewrite !bindOk ar bindOk.
have eX : x0 = X0`_n0 by rewrite HX0 eqxx.
have eV : v0 = V0`_n0 by rewrite HV0 eqxx.
have [||s] := @loop_ok n n0 noise X0 V0 k1 nn sn; [by rewrite sX0|by rewrite sV0|].
rewrite -eX -eV => -> [[z1 z2 z3 z4] Hin _ _ [_ Hf Ha]].
rewrite bindOk; do 5!eexists; split; first reflexivity.
split; first by rewrite size_mkseq.
- by move=> i ri; rewrite nth_mkseq.
- by have [-> ->] := Hin n0 (leqnn _).
- split=> i ri; last by have [] := Hin i ri.
  have [-> -> _ _] := Hin i (ltnW ri); rewrite HX0 HV0 Hx Hv.
  by case: eqP => // E; lia.
- by move=> i ri; have [? ?] := Ha i ri; split=> //; exact: Hf.
Qed.
End Proofs.

Section Cases.
Variable R : realFieldType.
Add Field RF' : (mc_field_theory R).
Local Ltac rng := fold_ring (Num.RealField.fieldType R); ring.

Lemma bgle_float (K : seq R) dt (force : R -> R) n n0 x0 v0 noise px pv :
  (n0.+1 < n)%N -> size noise = n -> predef_ok n n0 x0 px -> predef_ok n n0 v0 pv ->
  bgle_integrate K dt force n n0 false x0 v0 noise px pv = Err AttributeError.
Proof.
move=> nn sn px_ok pv_ok; rewrite /bgle_integrate sn eqxx bindOk.
have nn' : (n0 < n)%N by lia.
have [tv -> [sv Hv]] := predef_run nn' pv_ok.
have [tx -> [sx Hx]] := predef_run nn' px_ok.
rewrite !bindOk.
have nv : (n0 < size tv)%N by rewrite sv.
have nx : (n0 < size tx)%N by rewrite sx.
have [V0 -> _] := wr_total (0 : R) v0 nv.
have [X0 -> _] := wr_total (0 : R) x0 nx.
by rewrite !bindOk /= leqNgt nn.
Qed.

Lemma no_kernel (K : seq R) dt n0 V i : (forall j, K`_j = 0) ->
  begin_memory K dt n0 V i = 0 /\ forall e, end_memory K dt V i e = 0 /\ lag0_memory K dt e = 0.
Proof.
move=> K0.
have l0 e : lag0_memory K dt e = 0 by rewrite /lag0_memory K0 mul0r mulr0.
have f0 j e : full_memory K dt V j e = 0.
  rewrite /full_memory /excess K0 mul0r mulr0 if_same addr0 /scalar_memory /trapz_rule big1 ?scaler0 //.
  by move=> k _; rewrite !K0 !mul0r addr0 scaler0.
by split; rewrite /begin_memory ?l0 ?f0 ?if_same // => e; rewrite /end_memory ?l0 ?f0 ?if_same.
Qed.

Lemma rk4s_const h (acc : R -> R -> R -> R) x v c0 c1 :
  (forall t y w, acc t y w = c0 + t * c1) ->
  (rk4s h acc x v).2 = v + h * (c0 + 2^-1 * c1) /\ (c0 = 0 -> c1 = 0 -> (rk4s h acc x v).1 = x + h * v).
Proof.
move=> E; rewrite /rk4s /= !E.
have n6 : (6%:R : R) != 0 by rewrite pnatr_eq0.
have n2 : (2%:R : R) != 0 by rewrite pnatr_eq0.
split=> [|-> ->]; last first.
  rewrite !(mulr0, addr0) -mulrA; congr (_ + _ * _).
  have -> : v + 2%:R * v + 2%:R * v + v = 6%:R * v.
    by rewrite !mulr_natl !mulrSr !mulr0n !add0r; abel.
  by rewrite mulrA mulVf // mul1r.
rewrite -mulrA; congr (_ + _ * _).
apply: (mulfI n6); rewrite mulrA divff // mul1r !mul0r addr0 mul1r.
have -> : 2%:R * (c0 + 2^-1 * c1) = 2%:R * c0 + c1 by rewrite mulrDr mulrA divff // mul1r.
have -> : 6%:R * (c0 + 2^-1 * c1) = 6%:R * c0 + 3%:R * c1.
  rewrite mulrDr mulrA; congr (_ + _ * _).
  have -> : 6%:R = 3%:R * 2%:R :> R by rewrite -natrM.
  by rewrite -mulrA divff // mulr1.
by rewrite !mulr_natl !mulrSr !mulr0n !add0r; abel.
Qed.

Lemma bgle_ballistic (K : seq R) dt n x0 v0 :
  (1 < size K)%N -> (forall i, K`_i = 0) -> (0 < n)%N ->
  exists X V T M A, bgle_integrate K dt (fun=> 0) n 0 true x0 v0 (nseq n 0) None None = Ok (X, V, T, M, A) /\
  [/\ size X = n, size V = n
    & forall i, (i < n)%N -> [/\ X`_i = x0 + i%:R * dt * v0, V`_i = v0, M`_i = 0 & A`_i * dt = 0]].
Proof.
move=> k1 K0 n0.
have [|//|//|//|X [V [T [M [A [E [[sX sV _ _ _] _ [hx hv] [_ hM] H]]]]]]] :=
  @bgle_run R K dt (fun=> 0) n 0 true x0 v0 (nseq n 0) None None k1 n0; first by rewrite size_nseq.
exists X, V, T, M, A; split; first exact: E.
split=> //; elim=> [|i IH] ri.
  by rewrite hx hv !mul0r addr0; have [//|-> ->] := hM 0%N; rewrite mul0r.
have [F D Me] := H i.+1 ri; have [|ex ev _ _] := IH; first by lia.
have [b0 e0] := no_kernel dt 0 V i.+1 K0.
move: F; rewrite /bgle_follows nth_nseq if_same b0 /= => F.
set acc := acceleration _ _ _ _ in F.
have [|r2 r1] := @rk4s_const dt acc X`_i V`_i 0 0.
  by move=> t y w; rewrite /acc /acceleration (e0 w).1 !mulr0 !addr0 subrr.
have EX : X`_i.+1 = X`_i + dt * V`_i by rewrite -(r1 erefl erefl) -F.
have EV : V`_i.+1 = V`_i.
  have -> : V`_i.+1 = (rk4s dt acc X`_i V`_i).2 by rewrite -F.
  by rewrite r2 !mulr0 !addr0 mulr0 addr0.
split.
- have -> : i.+1%:R * dt = i%:R * dt + dt by rewrite mulrSr mulrDl mul1r.
  by rewrite EX ex ev mulrDl addrA.
- by rewrite EV.
- by have := Me 0; rewrite (e0 0).1 (e0 0).2 addr0.
- by rewrite mulrC -D /= EV subrr.
Qed.

Lemma bgle_repeats (K : seq R) dt (force : R -> R) n n0 noise (hx hv : seq R) :
  (1 < size K)%N -> (0 < n0 < n)%N -> size noise = n -> size hx = n -> size hv = n ->
  exists X V T M A,
    bgle_integrate K dt force n n0 true hx`_n0.-1 hv`_n0.-1 noise (Some hx) (Some hv) = Ok (X, V, T, M, A) /\
    X`_n0 = X`_n0.-1 /\ V`_n0 = V`_n0.-1.
Proof.
move=> k1 /andP[p0 pn] sn sx sv.
have [||//|X [V [T [M [A [E [_ _ [hX hV] [h _] _]]]]]]] :=
  @bgle_run R K dt force n n0 true hx`_n0.-1 hv`_n0.-1 noise (Some hx) (Some hv) k1 pn sn.
- by split=> //; case: n0 p0 {pn}.
- by split=> //; case: n0 p0 {pn}.
exists X, V, T, M, A; split=> //; have [|-> ->] := h n0.-1; first by lia.
by rewrite hX hV.
Qed.

Lemma bgle_restart :
  exists (K : seq R) (dt : R) (force : R -> R) n n0 x0 v0 noise X V T M A,
  [/\ (1 < size K)%N, (0 < n0 < n)%N, 0 < dt, size noise = n
    & bgle_integrate K dt force n 0 true x0 v0 noise None None = Ok (X, V, T, M, A)] /\
  exists X' V' T' M' A',
    bgle_integrate K dt force n n0 true X`_n0.-1 V`_n0.-1 noise (Some X) (Some V) = Ok (X', V', T', M', A')
    /\ X' <> X.
Proof.
have K0 i : [:: 0; 0 : R]`_i = 0 by case: i => [|[|[]]].
exists [:: 0; 0], 1, (fun=> 0), 3%N, 2%N, 0, 1, (nseq 3 0).
have [//|X [V [T [M [A [E [sX sV H]]]]]]] := @bgle_ballistic [:: 0; 0] 1 3 0 1 erefl K0.
exists X, V, T, M, A; split; first by split; [| |exact: ltr01| |exact: E].
have [//|//|//|//|//|X' [V' [T' [M' [A' [E' [H1 _]]]]]]] :=
  @bgle_repeats [:: 0; 0] 1 (fun=> 0) 3 2 (nseq 3 0) X V.
exists X', V', T', M', A'; split; first exact: E'.
move=> EX; move: H1; rewrite EX /=.
have [|-> _ _ _] := H 2%N; first by [].
have [|-> _ _ _] := H 1%N; first by [].
by rewrite !mulr1 !add0r => /eqP; rewrite eqr_nat.
Qed.

Lemma bgle_ex :
  exists X V T M A, bgle_integrate [:: 0; 0 : R] 1 (fun=> 0) 3 0 true 0 1 (nseq 3 0) None None = Ok (X, V, T, M, A) /\
  X`_2 = 2%:R /\ V`_2 = 1.
Proof.
have K0 i : [:: 0; 0 : R]`_i = 0 by case: i => [|[|[]]].
have [//|X [V [T [M [A [E [sX sV H]]]]]]] := @bgle_ballistic [:: 0; 0] 1 3 0 1 erefl K0.
exists X, V, T, M, A; split; first exact: E.
have [//|-> -> _ _] := H 2%N; split; last by [].
by rewrite !mulr1 add0r.
Qed.

Lemma bgle_start_memory :
  exists (K : seq R) (dt : R) x0 v0 X V T M A,
  [/\ (1 < size K)%N, 0 < dt,
      bgle_integrate K dt (fun=> 0) 3 0 true x0 v0 (nseq 3 0) None None = Ok (X, V, T, M, A)
    & (X`_2, V`_2) <> rk4s dt (acceleration (fun=> 0) 0 (scalar_memory K dt (take 2 V))
                                (fun e => scalar_memory K dt (rcons (take 2 V) e))) X`_1 V`_1].
Proof.
exists [:: 0; 1], 1, 0, 1.
have [//|//|//|//|//|//|X [V [T [M [A [E [[sX sV _ _ _] _ [hx hv] _ H]]]]]]] :=
    @bgle_run R [:: 0; 1] 1 (fun=> 0) 3 0 true 0 1 (nseq 3 0) None None.
exists X, V, T, M, A; split; [by []|exact: ltr01|exact: E|].
have l0 e : lag0_memory [:: 0; 1] 1 e = 0 :> R by rewrite /lag0_memory mul0r mulr0.
have V1 : V`_1 = 1.
  have [//|F _ _] := H 1%N; move: F; rewrite /bgle_follows /= /begin_memory /end_memory /= => F.
  set acc := acceleration _ _ _ _ in F.
  have [|r2 _] := @rk4s_const 1 acc X`_0 V`_0 0 0.
    by move=> t y w; rewrite /acc /acceleration l0 !mulr0 !addr0 subrr.
  by have -> : V`_1 = (rk4s 1 acc X`_0 V`_0).2; [rewrite -F|rewrite r2 !mulr0 !addr0 mulr0 addr0].
have tV : take 2 V = [:: 1; 1] by case: V sV hv V1 {E H} => [|a [|b V]] //= _ -> ->; rewrite take0.
have sm2 : scalar_memory [:: 0; 1] 1 [:: 1; 1] = 2^-1 :> R.
  by rewrite /scalar_memory /trapz_rule /= big_ord_recl big_ord0 /= scale1r addr0 mul0r add0r mulr1 /GRing.scale /= mulr1.
have sm3 e : scalar_memory [:: 0; 1] 1 [:: 1; 1; e] = 2^-1 :> R.
  by rewrite /scalar_memory /trapz_rule /= big_ord_recl big_ord0 /= scale1r addr0 mul0r add0r mulr1 /GRing.scale /= mulr1.
have [//|F _ _] := H 2%N; move: F.
rewrite /bgle_follows /= /begin_memory /end_memory /= => F.
set acc := acceleration _ _ _ _ in F.
have [|r2 _] := @rk4s_const 1 acc X`_1 V`_1 0 (- 2^-1).
  move=> t y w; rewrite /acc /acceleration l0 /full_memory tV sm3 /excess /= !addr0 mulr0 !add0r.
  by rewrite mulrN.
rewrite tV; set acc' := acceleration _ _ _ _ => G.
have [|r2' _] := @rk4s_const 1 acc' X`_1 V`_1 (- 2^-1) 0.
  move=> t y w; rewrite /acc' /acceleration /= sm3 sm2 -mulrDl subrK mul1r mulr0 !addr0 add0r //.
have : (rk4s 1 acc X`_1 V`_1).2 = (rk4s 1 acc' X`_1 V`_1).2 by rewrite -G -F.
rewrite r2 r2' !mul1r !mulr0 addr0 add0r => /addrI; rewrite mulrN => /oppr_inj.
move=> H2; have h0 : 2^-1 != 0 :> R by rewrite invr_eq0 pnatr_eq0.
have /eqP : 2^-1 = 1 :> R by apply: (mulfI h0); rewrite mulr1.
by rewrite invr_eq1 -[1]/(1%:R) eqr_nat.
Qed.
End Cases.
