(** * Time integration: concrete inputs. *)
From mathcomp Require Import all_ssreflect all_algebra.
From mathcomp Require Import zify.
From Verif Require Import Base Tactics FKernel Quadrature MemorySpec FKernelProofs VolterraMain Mx11.
From Verif Require Import Integrator IntegratorProofs IntegratorProofs2.
Set Implicit Arguments.
Unset Strict Implicit.
Unset Printing Implicit Defensive.
Import Order.TTheory GRing.Theory Num.Theory.
Local Open Scope ring_scope.

Lemma noise_memory_refuted (R : realFieldType) : exists (K E mem : seq 'M[R]_1) (i : nat),
  [/\ (1 < size K)%N, (0 < i < size E)%N, memory_trapz 1 K E = Ok mem
    & mem`_i <> - memory_of 1 K (take i.+1 E)].
Proof.
pose K := [:: 0; 1%:M] : seq 'M[R]_1; pose E := [:: 1%:M; 1%:M; 1%:M] : seq 'M[R]_1.
have [//|//|mem Em _] := @memory_trapz_main R 1 1 1 K E.
exists K, E, mem, 2%N; split=> //.
rewrite (@noise_memory R 1 1 1 K E mem 2 isT isT Em) /= opprD => /eqP.
rewrite -subr_eq0 opprK addrAC addNr add0r scale1r mulmx1 oppr_eq0 => /eqP/matrixP/(_ 0 0).
by rewrite !mxE eqxx => /eqP; rewrite oner_eq0.
Qed.

(** Constant unit force, no memory. *)
Definition falling (R : realFieldType) : integrator R 1 1 1 :=
  Integ [:: 0; 0] 1%:M 1 (fun=> 1%:M) (@evec_const R 1).

Lemma falling_ok (R : realFieldType) : let I := falling R in
  [/\ forall x, i_basis I x *m i_force I = 1%:M, forall k, k \in i_kernel I -> k = 0, (1 < size (i_kernel I))%N,
      history_ok I 3 None & exists2 t, run I 3 None true [::] = Ok t & (t_x t)`_2 = 2%:R%:M].
Proof.
move=> I.
have Hf x : i_basis I x *m i_force I = 1%:M by rewrite /= mul1mx.
have Hk k : k \in i_kernel I -> k = 0 by rewrite !inE => /orP[]/eqP.
split=> //.
have [t Et _] := @runE R 1 1 1 I 3 None true [::] isT isT isT; exists t; first exact: Et.
have [//|-> _] := @ballistic R 1 1 1 I 1%:M Hf Hk 3 None [::] t isT isT Et 2.
clear Et; rewrite /= mulr1 scaler0 !add0r expr2 mulfK ?pnatr_eq0 //.
by rewrite scalemx1.
Qed.

Lemma times_shifted (R : realFieldType) (d N Nf : nat) (I : integrator R d N Nf) n s zero gen t :
  (1 < size (i_kernel I))%N -> i_dt I != 0 -> history_ok I n (Some s) -> zero || (n <= size gen)%N ->
  (1 < size (t_time s))%N -> run I n (Some s) zero gen = Ok t ->
  (t_time s)`_0 = 0 /\ (t_time t)`_0 <> (t_time s)`_0.
Proof.
move=> k1 d0 Hx Hn s1 Et.
have [t' Et' [_ H _ _]] := runE k1 Hx Hn.
have Ett : t = t' by move: Et; rewrite Et' => -[].
rewrite {}Ett; case: Hx => Hs rn _ _.
have z : (t_time s)`_0 = 0 by rewrite Hs nth_mkseq ?mul0r //; slia.
rewrite z; split=> //; rewrite H; last by slia.
rewrite addn0 /= => /eqP; rewrite mulf_eq0 (negPf d0) orbF pnatr_eq0; slia.
Qed.

Lemma bgle_refuted (R : realFieldType) : exists (K v : seq R) (e r : R),
  [/\ (0 < size v)%N, (1 < size K)%N, bgle_mem K 1 v = Ok r
    & r + 2^-1 * 1 * (K`_0 * e) <> scalar_memory K 1 (rcons v e)].
Proof.
pose K := [:: 1; 1; 1] : seq R; pose v := [:: 1] : seq R.
have [//|//|r Er H] := @bgle_memory R K 1 v 0.
exists K, v, 0, r; split=> //; rewrite H /= => /eqP.
by rewrite -subr_eq0 addrAC subrr add0r !mulr1 invr_eq0 pnatr_eq0.
Qed.

(** Free particle with a memory concentrated at lag zero, starting with velocity one. *)
Definition braking (R : realFieldType) : integrator R 1 1 1 :=
  Integ [:: 1%:M; 0] 0 1 (fun=> 0) (@evec_const R 1).
Definition moving (R : realFieldType) : traj R 1 := Traj [:: 0] [:: 0] [:: 1%:M].

Section Braking.
Variable R : realFieldType.
Add Field RF : (mc_field_theory R).

Lemma mem_braking (X V : seq 'M[R]_1) e :
  memory_of 1 (i_kernel (braking R)) (rcons (evals (braking R) X V 1) e) = 2^-1 *: e.
Proof.
rewrite /memory_of /trapz_rule /= big_ord1 scale1r /mem_integrand /=; congr (_ *: _).
by rewrite mulmx1 mulmx0 addr0.
Qed.

Lemma mem_braking0 (X V : seq 'M[R]_1) : memory_of 1 (i_kernel (braking R)) (evals (braking R) X V 1) = 0.
Proof. by rewrite /memory_of /trapz_rule /= big_ord0 scaler0. Qed.

Lemma rk4_memory_start (v m h u w : R) : u = h - h * h * h -> w = h - h * h * h * u -> 2%:R * h = 1 ->
  let k1 M := - M in
  let k2 M := - (h * M + h * (h * (v + h * k1 M))) in
  let k3 M := - (h * M + h * (h * (v + h * k2 M))) in
  let k4 M := - (h * (v + k3 M)) in
  let S M := k1 M + 2%:R * k2 M + 2%:R * k3 M + k4 M in
  S m - S 0 = - (1 + 2%:R * u + (2%:R - h) * w) * m.
Proof.
move=> -> -> _; rewrite /=; fold_ring (Num.RealField.fieldType R); ring.
Qed.

Lemma rk4_start (x v m : 'rV[R]_1) :
  let acc M := fun th (x v : 'rV[R]_1) => 0 - ((1 - th) *: M + th *: (2^-1 *: v)) in
  (rk4 1 (acc m) x v).2 = (rk4 1 (acc 0) x v).2 -> m = 0.
Proof.
have s0 : (1 / 6%:R : R) != 0 by rewrite mul1r invr_eq0 pnatr_eq0.
have h1 : 1 - 2^-1 = 2^-1 :> R by rewrite {1}(splitr 1) mul1r addrK.
move=> acc.
pose k1 M : 'rV[R]_1 := - M.
pose k2 M : 'rV[R]_1 := - (2^-1 *: M + 2^-1 *: (2^-1 *: (v + 2^-1 *: k1 M))).
pose k3 M : 'rV[R]_1 := - (2^-1 *: M + 2^-1 *: (2^-1 *: (v + 2^-1 *: k2 M))).
pose k4 M : 'rV[R]_1 := - (2^-1 *: (v + k3 M)).
have E M : (rk4 1 (acc M) x v).2 = v + (1 / 6%:R) *: (k1 M + 2%:R *: k2 M + 2%:R *: k3 M + k4 M).
  rewrite /rk4 /acc /k4 /k3 /k2 /k1; cbv beta iota zeta.
  by rewrite !sub0r h1 subr0 subrr !mul1r !scale1r !scale0r addr0 add0r.
move=> H; move: (etrans (esym (E m)) (etrans H (E 0))) => {E H}/addrI/(scalerI s0) H.
apply/matrixP => i j; move/matrixP/(_ i j): H.
have e1 M : k1 M i j = - M i j by rewrite mxE.
have e2 M : k2 M i j = - (2^-1 * M i j + 2^-1 * (2^-1 * (v i j + 2^-1 * k1 M i j))).
  by rewrite /k2 mxE; congr (- _); rewrite mxE; congr (_ + _); rewrite 1?mxE // 2!mxE; do 2!congr (_ * _); rewrite mxE; congr (_ + _); rewrite mxE.
have e3 M : k3 M i j = - (2^-1 * M i j + 2^-1 * (2^-1 * (v i j + 2^-1 * k2 M i j))).
  by rewrite /k3 mxE; congr (- _); rewrite mxE; congr (_ + _); rewrite 1?mxE // 2!mxE; do 2!congr (_ * _); rewrite mxE; congr (_ + _); rewrite mxE.
have e4 M : k4 M i j = - (2^-1 * (v i j + k3 M i j)).
  by rewrite /k4 mxE; congr (- _); rewrite mxE; congr (_ * _); rewrite mxE.
have eS M : (k1 M + 2%:R *: k2 M + 2%:R *: k3 M + k4 M) i j
    = k1 M i j + 2%:R * k2 M i j + 2%:R * k3 M i j + k4 M i j.
  by rewrite mxE; congr (_ + _); rewrite mxE; congr (_ + _); [rewrite mxE; congr (_ + _)|]; rewrite mxE.
clearbody k1 k2 k3 k4.
rewrite !eS !e4 !e3 !e2 !e1 => {eS e1 e2 e3 e4 k1 k2 k3 k4}.
have -> : (0 : 'rV[R]_1) i j = 0 by rewrite mxE.
move: (v i j) (m i j) => a b; set h : R := 2^-1.
have h0 : 0 < h by rewrite invr_gt0 ltr0n.
have h2 : 2%:R * h = 1 by rewrite mulfV ?pnatr_eq0.
have h3 : h < 1 by rewrite invf_lt1 ?ltr1n ?ltr0n.
pose u := h - h * h * h; pose w := h - h * h * h * u.
have hh : h * h < 1 by rewrite mulr_ilt1 // ltW.
have u0 : 0 < u by rewrite subr_gt0 gtr_pmull.
have w0 : 0 < w.
  rewrite subr_gt0; apply: (@lt_trans _ _ (h * h * h)); last by rewrite gtr_pmull.
  rewrite gtr_pmulr ?mulr_gt0 //; apply: lt_trans h3.
  by rewrite gtr_addl oppr_lt0 !mulr_gt0.
have := @rk4_memory_start a b h u w erefl erefl h2; rewrite /= => E H.
have {}E : - (1 + 2%:R * u + (2%:R - h) * w) * b = 0.
  rewrite -{}E; apply/eqP; rewrite subr_eq0; apply/eqP.
  exact: H.
move/eqP: E; rewrite mulf_eq0 oppr_eq0 => /orP[/eqP T|/eqP //].
have : 0 < 1 + 2%:R * u + (2%:R - h) * w.
  rewrite addr_gt0 ?addr_gt0 ?mulr_gt0 ?ltr0n ?ltr01 // subr_gt0 (lt_trans h3) // ltr1n.
  by [].
by rewrite T ltxx.
Qed.

Lemma rk4_ext (d : nat) (h : R) (f g : R -> 'rV[R]_d -> 'rV[R]_d -> 'rV[R]_d) x v :
  (forall th y w, f th y w = g th y w) -> rk4 h f x v = rk4 h g x v.
Proof. by move=> E; rewrite /rk4 !E. Qed.

Lemma first_step_refuted : exists (I : integrator R 1 1 1) n x0 t,
  [/\ (1 < size (i_kernel I))%N, history_ok I n x0, run I n x0 true [::] = Ok t
    & ~ forall i, (history_len x0 <= i < n)%N ->
        let E := evals I (t_x t) (t_v t) i in
        ((t_x t)`_i, (t_v t)`_i) =
        rk4 (i_dt I)
          (fun theta x v => i_basis I x *m i_force I + 0
             - ((1 - theta) *: memory_of (i_dt I) (i_kernel I) E
                + theta *: memory_of (i_dt I) (i_kernel I) (rcons E (i_evec I x v))))
          (t_x t)`_i.-1 (t_v t)`_i.-1].
Proof.
have hx : history_ok (braking R) 2 (Some (moving R)) by split=> //=; rewrite /mkseq /= mul0r.
have [t Et [_ _ Hin H]] := @runE R 1 1 1 (braking R) 2 (Some (moving R)) true [::] isT hx isT.
exists (braking R), 2%N, (Some (moving R)), t; split; [exact: isT | exact: hx | exact: Et |].
clear Et; move=> /(_ 1%N isT) /= Hi.
have Ho := H 1%N isT; have [_ V0] := Hin 0%N isT; clear H Hin hx.
have {}Hi := etrans (esym Ho) Hi; clear Ho.
have Eacc M0 : rk4 1 (fun theta x v => i_basis (braking R) x *m i_force (braking R) + 0
    - ((1 - theta) *: M0 + theta *: memory_of 1 (i_kernel (braking R))
         (rcons (evals (braking R) (t_x t) (t_v t) 1) (i_evec (braking R) x v)))) (t_x t)`_0 (t_v t)`_0
  = rk4 1 (fun th (x v : 'rV[R]_1) => 0 - ((1 - th) *: M0 + th *: (2^-1 *: v))) (t_x t)`_0 (t_v t)`_0.
  by apply: rk4_ext => th y w; rewrite mem_braking mul0mx addr0.
have Hm : start_memory (braking R) (t_x t) (t_v t) 1 = 0.
  move: Hi; rewrite (mem_braking0 (t_x t) (t_v t)) => Hi.
  exact: (rk4_start (congr1 snd (etrans (esym (Eacc (start_memory (braking R) (t_x t) (t_v t) 1))) (etrans Hi (Eacc 0))))).
move: Hm; rewrite /start_memory eqxx mem_braking0 add0r V0 /= mulmx1 mulr1 => /matrixP/(_ 0 0).
rewrite !mxE eqxx mulr1 => /eqP.
by rewrite invr_eq0 pnatr_eq0.
Qed.
End Braking.
