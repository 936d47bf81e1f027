(** * Convergence of [compute_kernel]. *)
From Coq Require Import Reals Lra.
From Coquelicot Require Import Coquelicot.
From mathcomp Require Import all_ssreflect all_algebra zify.
From Verif Require Import Base RealsMC Quadrature FKernel Model Estimator FKernelSpec KernelSpec KernelValues FKernelProofs FKernelProofs2.
From Verif Require Import Tactics VolterraMain Convergence ConvergenceProofs ConvergenceInt ConvergenceMain ConvergenceMain2.
Set Implicit Arguments.
Unset Strict Implicit.
Unset Printing Implicit Defensive.
Import Order.TTheory GRing.Theory Num.Theory.
Local Open Scope ring_scope.
Bind Scope ring_scope with Rdefinitions.R.
Local Notation R := Rdefinitions.R.

(** ** Runs of [compute_kernel] *)
Section Runs.
Variables (F : realFieldType) (k o : nat) (dt : F) (N : nat).
Variables (bb dd : seq 'M[F]_k) (bd db : seq 'M[F]_(k, o)).
Hypotheses (sb : size bb = N) (sd : size bd = N) (sdb : size db = N) (sdd : size dd = N).
Let c := Corrs bb bd db (Some dd).
Let times : seq F := mkseq (fun i => i%:R * dt) N.

Lemma ck_initial : (0 < N)%N -> bb`_0 \in unitmx ->
  exists2 k0, initial_k0 c None = Ok k0 & bb`_0 *m k0 = db`_0.
Proof.
move=> N0 u; rewrite /initial_k0 /= (rdE 0) ?sb //= (rdE 0) ?sdb //= /solve_linear /finv u /=.
by exists (invmx bb`_0 *m db`_0); rewrite // mulKVmx.
Qed.

Lemma ck_second_rect : (0 < N)%N -> bb`_0 \in unitmx ->
  exists2 ker, compute_kernel dt N c MSecondRect None = Ok (times, ker) &
    [/\ size ker = N, bb`_0 *m ker`_0 = db`_0 & solves2_rect dt bb`_0 dd db ker].
Proof.
move=> N0 u; have [k0 E0 E] := ck_initial N0 u.
have [||||K EK [sK K0 _]] := @rect2_run F k o (nseq (size dd) 0) dt k0 bb`_0 dd db; rewrite ?size_nseq ?sdb ?sdd //.
exists K; last by have /rect2_main[_ [s0 _ S]] := EK; rewrite sK K0 sdd E; split.
rewrite /initial_k0 /= in E0; rewrite /compute_kernel N0 /= E0 /= (rdE 0) ?sb //= /kernel_second_kind_rect EK /=.
by rewrite size_mkseq sK sdd eqxx.
Qed.

Lemma ck_second_trapz : (0 < N)%N -> bb`_0 \in unitmx -> bb`_0 - (2^-1 * dt) *: dd`_0 \in unitmx ->
  exists2 ker, compute_kernel dt N c MSecondTrapz None = Ok (times, ker) &
    [/\ size ker = N, bb`_0 *m ker`_0 = db`_0 & solves2_trapz dt bb`_0 dd db ker].
Proof.
move=> N0 u u'; have [k0 E0 E] := ck_initial N0 u.
have [||||K EK [sK K0 _]] := @trapz2_run F k o (nseq (size dd) 0) dt k0 bb`_0 dd db; rewrite ?size_nseq ?sdb ?sdd //.
exists K; last by have /trapz2_main[_ [s0 _ S]] := EK; rewrite sK K0 sdd E; split.
rewrite /initial_k0 /= in E0; rewrite /compute_kernel N0 /= E0 /= (rdE 0) ?sb //= /kernel_second_kind_trapz EK /=.
by rewrite size_mkseq sK sdd eqxx.
Qed.

Lemma ck_rect dbb k0 : (1 < N)%N -> dt *: bb`_1 \in unitmx ->
  exists2 ker, compute_kernel dt N (Corrs bb bd db dbb) MRect k0 = Ok (times, ker) &
    size ker = N /\ solves_rect dt bb bd ker.
Proof.
move=> N1 u.
have [||||K EK [sK _ _]] := @rect_run F k o (nseq (size bb) 0) dt bb bd; rewrite ?size_nseq ?sb ?sd //.
exists K; last by have /rect_main[_ [s0 _ S]] := EK; rewrite sK sb; split.
rewrite /compute_kernel (ltnW N1) /= /kernel_first_kind_rect EK /=.
by rewrite size_mkseq sK sb eqxx.
Qed.
End Runs.

Section Main.
Variables (d m : nat) (T M : R).
Hypotheses (T0 : 0 <= T) (M0 : 0 <= M).
Implicit Types (B Bd : R -> 'M[R]_d) (D Dd K : R -> 'M[R]_(d, m)).

Lemma lip_within B x : lipschitz M T B -> 0 <= x <= T -> within M (B x).
Proof. by move=> h hx; apply: (proj1 h). Qed.

Lemma small_step (x : R) : 0 <= x -> exists2 e, 0 < e & forall dt, 0 < dt <= e -> x * dt <= 2^-1.
Proof.
move=> x0; have p1 : 0 < x + 1 := ltr_paddl x0 ltr01.
exists (2^-1 / (x + 1)); first by rewrite divr_gt0 ?invr_gt0 ?ltr0n.
move=> dt /andP[p]; rewrite ler_pdivl_mulr // => h.
by apply: le_trans h; rewrite mulrC ler_wpmul2l ?(ltW p) // ler_addl ler01.
Qed.

Lemma step_unit (dt : R) (A : 'M[R]_d) : 0 < dt -> A \in unitmx -> dt *: A \in unitmx.
Proof. by move=> p u; rewrite unitmxZ // unitfE gt_eqF. Qed.

Lemma second_rect_converges B Bd D Dd K : B 0 \in unitmx -> lipschitz M T Bd -> lipschitz M T K ->
  volterra2 T (B 0) Bd Dd K ->
  exists2 C, 0 <= C & forall dt N, 0 < dt -> (0 < N)%N -> N.-1%:R * dt <= T ->
    exists2 ker, compute_kernel dt N (Corrs (samples dt N B) (samples dt N D) (samples dt N Dd) (Some (samples dt N Bd)))
        MSecondRect None = Ok (mkseq (fun i => i%:R * dt) N, ker) &
      size ker = N /\ forall i, (i < N)%N -> within (C * dt) (ker`_i - K (i%:R * dt)).
Proof.
move=> u hB hK eq; have [c c0 hc] := unit_coer u.
have q0 : 0 <= c * (d%:R * M) by rewrite !mulr_ge0 ?ler0n ?(ltW c0).
have r0 : 0 <= T * LC d M by rewrite mulr_ge0 ?LC_ge0.
have e0 : 0 <= exp (c * (d%:R * M) * T) by apply/leRP/Rlt_le/exp_pos.
exists (c * (T * LC d M) * exp (c * (d%:R * M) * T)); first by rewrite !mulr_ge0 ?(ltW c0) ?LC_ge0.
move=> dt N dt0 N0 le.
have B0E : (samples dt N B)`_0 = B 0 by rewrite nth_samples ?mul0r.
have u' : (samples dt N B)`_0 \in unitmx by rewrite B0E.
have [ker Ek [sk k0 sol]] := ck_second_rect dt (samples dt N D) (size_samples dt N B) (size_samples dt N Dd) (size_samples dt N Bd) N0 u'.
exists ker => //; split=> // i li.
have k0E : ker`_0 = K (0%:R * dt).
  rewrite mul0r; rewrite B0E nth_samples // mul0r in k0; apply: (can_inj (mulKmx u)); rewrite k0 (eq 0).
    by rewrite mint_point add0r.
  by rewrite lexx.
rewrite B0E in sol.
have h := @second_rect_error _ d m dt c M (T * LC d M * dt) (B 0) (samples dt N Bd) (samples dt N Dd) ker
  (fun i => K (i%:R * dt)) (ltW dt0) (ltW c0) M0 (mulr_ge0 r0 (ltW dt0)) _ k0E hc sol.
apply: within_le (h _ _ i _); rewrite ?size_samples //.
- have -> : c * (T * LC d M) * exp (c * (d%:R * M) * T) * dt = c * (T * LC d M * dt) * exp (c * (d%:R * M) * T).
    by rewrite mulrAC !mulrA.
  apply: ler_wpmul2l; first by rewrite !mulr_ge0 ?(ltW c0) ?(ltW dt0) ?LC_ge0.
  by apply: pow_exp_T; rewrite ?(ltW dt0) //; have /andP[_] := grid dt0 le li.
- by move=> j lj; rewrite nth_samples //; apply: (proj1 hB); apply: grid dt0 le lj.
- move=> j /andP[j0 lj]; rewrite (nth_samples dt Dd lj) eq; last exact: grid dt0 le lj.
  have := withinN (rect_residual M0 hB hK dt0 le lj).
  set x := rect_rule _ _ _; set z := mint _ _ _ => h'.
  by have -> : x + Dd (j%:R * dt) - (z + Dd (j%:R * dt)) = - (z - x) by abel.
Qed.

Lemma second_trapz_converges B Bd Bdd D Dd K Kd : B 0 \in unitmx -> lipschitz M T Bd -> lipschitz M T K ->
  derivative M T Bd Bdd -> derivative M T K Kd -> volterra2 T (B 0) Bd Dd K ->
  exists C, exists2 dt1, 0 < dt1 & 0 <= C /\ forall dt N, 0 < dt <= dt1 -> (0 < N)%N -> N.-1%:R * dt <= T ->
    exists2 ker, compute_kernel dt N (Corrs (samples dt N B) (samples dt N D) (samples dt N Dd) (Some (samples dt N Bd)))
        MSecondTrapz None = Ok (mkseq (fun i => i%:R * dt) N, ker) &
      size ker = N /\ forall i, (i < N)%N -> within (C * dt ^+ 2) (ker`_i - K (i%:R * dt)).
Proof.
move=> u hB hK dB dK eq; have [c c0 hc] := unit_coer u.
have c0' : 0 <= 2 * c by rewrite mulr_ge0 ?ler0n ?(ltW c0).
have q0 : 0 <= 2 * c * (d%:R * M) by rewrite !mulr_ge0 ?ler0n ?(ltW c0).
pose Z : R := T * (2 * (3%:R * (d%:R * (M * M)))).
have r0 : 0 <= Z by rewrite !mulr_ge0 ?ler0n.
have e0 : 0 <= exp (2 * c * (d%:R * M) * T) by apply/leRP/Rlt_le/exp_pos.
have [dt1 p1 small] := @small_step (c * (d%:R * (2^-1 * M))) ltac:(by rewrite !mulr_ge0 ?invr_ge0 ?ler0n ?(ltW c0)).
exists (2 * c * Z * exp (2 * c * (d%:R * M) * T)), dt1 => //; split; first by rewrite !mulr_ge0 ?(ltW c0) ?ler0n.
move=> dt N /andP[dt0 dtle] N0 le.
have B0E : (samples dt N B)`_0 = B 0 by rewrite nth_samples ?mul0r.
have Bd0E : (samples dt N Bd)`_0 = Bd 0 by rewrite nth_samples ?mul0r.
have u' : (samples dt N B)`_0 \in unitmx by rewrite B0E.
have hc' : coer (2 * c) (B 0 - (2^-1 * dt) *: (samples dt N Bd)`_0).
  apply: (coer_near (e := 2^-1 * dt * M) (ltW c0) hc).
    rewrite addrAC subrr add0r Bd0E; apply: withinN; apply: withinZp; first by rewrite mulr_ge0 ?invr_ge0 ?ler0n ?(ltW dt0).
    by apply: (proj1 hB); rewrite lexx.
  have := small dt; rewrite dt0 dtle => /(_ isT); congr (_ <= _).
  by rewrite -!mulrA [dt * M]mulrC.
have u2 := coer_unit hc'; rewrite -B0E in u2.
have [ker Ek [sk k0 sol]] := ck_second_trapz (samples dt N D) (size_samples dt N B) (size_samples dt N Dd) (size_samples dt N Bd) N0 u' u2.
exists ker => //; split=> // i li.
have k0E : ker`_0 = K (0%:R * dt).
  rewrite mul0r; rewrite B0E nth_samples // mul0r in k0; apply: (can_inj (mulKmx u)); rewrite k0 (eq 0).
    by rewrite mint_point add0r.
  by rewrite lexx.
rewrite B0E in sol.
have h := @second_trapz_error _ d m dt (2 * c) M (Z * dt ^+ 2) (B 0) (samples dt N Bd) (samples dt N Dd) ker
  (fun i => K (i%:R * dt)) (ltW dt0) c0' M0 (mulr_ge0 r0 (exprn_ge0 2 (ltW dt0))) _ k0E hc' sol.
apply: within_le (h _ _ i _); rewrite ?size_samples //.
- have -> : 2 * c * Z * exp (2 * c * (d%:R * M) * T) * dt ^+ 2 = 2 * c * (Z * dt ^+ 2) * exp (2 * c * (d%:R * M) * T).
    by rewrite [LHS]mulrAC !mulrA.
  apply: ler_wpmul2l; first by rewrite mulr_ge0 // mulr_ge0 ?exprn_ge0 ?(ltW dt0).
  by apply: pow_exp_T; rewrite ?(ltW dt0) //; have /andP[_] := grid dt0 le li.
- by move=> j lj; rewrite nth_samples //; apply: (proj1 hB); apply: grid dt0 le lj.
- move=> j /andP[j0 lj]; rewrite (nth_samples dt Dd lj) eq; last exact: grid dt0 le lj.
  have := withinN (trapz_residual M0 hB hK dt0 le dB dK lj).
  set x := trapz_rule _ _ _; set z := mint _ _ _ => h'.
  by have -> : x + Dd (j%:R * dt) - (z + Dd (j%:R * dt)) = - (z - x) by abel.
Qed.

(** *** First kind *)
Lemma first_residual B Bd K dt N i : lipschitz M T B -> lipschitz M T K -> derivative M T B Bd ->
  0 < dt -> N.-1%:R * dt <= T -> (i.+1 < N)%N ->
  let F j := mint (fun s => B (j%:R * dt - s) *m K s) 0 (j%:R * dt) -
     rect_rule dt (fun l => (samples dt N B)`_(j - l) *m K (l%:R * dt)) j in
  within ((LC d M + T * (d%:R * (4%:R * M * M) + d%:R * (M * M))) * dt * dt) (F i.+1 - F i).
Proof.
move=> hB hK dB dt0 le li F.
have li' : (i < N)%N by exact: ltnW.
have dt0' := ltW dt0.
have /andP[t0 tT] := grid dt0 le li'; have /andP[t'0 t'T] := grid dt0 le li.
set t := i%:R * dt in t0 tT *; set t' := i.+1%:R * dt in t'0 t'T *.
have tt' : t' = t + dt by rewrite /t' -addn1 natrD mulrDl mul1r.
have ltt' : t <= t' by rewrite tt' ler_addl.
pose f s := B (t - s) *m K s; pose f' s := B (t' - s) *m K s.
have Hf : mlip (LC d M) 0 t f := conv_lip hB hK tT.
have Hf' : mlip (LC d M) 0 t' f' := conv_lip hB hK t'T.
have Hf'' : mlip (LC d M) 0 t f' by apply: mlip_sub Hf'.
have E : F i.+1 - F i = (mint f' t t' - (t' - t) *: f' t) +
   (mint (fun s => f' s - f s) 0 t - rect_rule dt (fun j => f' (j%:R * dt) - f (j%:R * dt)) i).
  rewrite /F !rect_samples // -/t -/t' (mint_chasles t0 ltt' Hf') (mint_sub t0 Hf'' Hf).
  have -> : rect_rule dt (fun l => B (t' - l%:R * dt) *m K (l%:R * dt)) i.+1 =
     rect_rule dt (fun l => f' (l%:R * dt)) i + dt *: f' t.
    by rewrite /rect_rule big_ord_recr /= scalerDr.
  have -> : rect_rule dt (fun j => f' (j%:R * dt) - f (j%:R * dt)) i =
    rect_rule dt (fun l => f' (l%:R * dt)) i - rect_rule dt (fun l => f (l%:R * dt)) i.
    by rewrite /rect_rule -scalerBr sumrB.
  have -> : t' - t = dt by rewrite tt' addrAC subrr add0r.
  rewrite -/f'; set p1 := mint _ _ _; set p2 := mint _ _ _; set p3 := mint _ _ _.
  set p4 := rect_rule _ _ _; set p5 := rect_rule _ _ _; set p6 := _ *: _.
  by abel.
rewrite E mulrDl mulrDl; apply: withinD.
  have h := @mint_const_err _ _ (LC d M) t t' (LC d M * dt) (f' t) f' ltt' (mlip_sub t0 (lexx t') Hf').
  have <- : (t' - t) * (LC d M * dt) = LC d M * dt * dt.
    by rewrite tt' [t + dt]addrC addrK mulrC.
  apply: h => s /andP[h1 h2].
  apply: within_le (Hf' _ _ _ _).
  - apply: ler_wpmul2l; first exact: LC_ge0.
    by rewrite ger0_norm ?subr_ge0 // ler_subl_addl -tt'.
  - by rewrite (le_trans t0 h1).
  - by rewrite t0.
set e : R := d%:R * (4%:R * M * dt ^+ 2 * M) + d%:R * (M * dt * (M * dt)).
have e0 : 0 <= e by rewrite addr_ge0 // !mulr_ge0 ?ler0n ?exprn_ge0.
have h := @rect_err _ _ (LC d M + LC d M) dt e i _ dt0' (mlipB Hf'' Hf).
apply: within_le (h _).
  have -> : T * (d%:R * (4%:R * M * M) + d%:R * (M * M)) * dt * dt = T * e.
    rewrite -!mulrA; congr (_ * _); rewrite -expr2 mulrDl /e; congr (_ + _); rewrite -!mulrA.
      by congr (_ * (_ * (_ * _))); rewrite mulrC -mulrA.
    by congr (_ * (_ * _)); rewrite mulrCA.
  by rewrite mulrA ler_wpmul2r.
move=> j s lj /andP[h1 h2].
have tj : 0 <= j%:R * dt by rewrite mulr_ge0 ?ler0n.
have l2 : j.+1%:R * dt <= t by rewrite ler_wpmul2r // ler_nat.
have st : s <= t := le_trans h2 l2.
have s0 : 0 <= s := le_trans tj h1.
have tjt : j%:R * dt <= t := le_trans h1 st.
have w : s <= j%:R * dt + dt by apply: le_trans h2 _; rewrite -addn1 natrD mulrDl mul1r.
set x := t - j%:R * dt; set y := t - s.
have x' : t' - j%:R * dt = x + dt by rewrite tt' /x; abel.
have y' : t' - s = y + dt by rewrite tt' /y; abel.
have xT : x + dt <= T by rewrite -x'; apply: le_trans t'T; rewrite ler_subl_addr ler_addl.
have dd := second_difference M0 dB (x := x) (y := y) (h := dt).
have -> : f' s - f s - (f' (j%:R * dt) - f (j%:R * dt)) =
   - ((B (x + dt) - B x) - (B (y + dt) - B y)) *m K s + (B (x + dt) - B x) *m (K s - K (j%:R * dt)).
  rewrite /f /f' x' y' -/x -/y !(mulmxBl, mulmxBr, mulNmx).
  by abel.
have xx : 0 <= x by rewrite subr_ge0.
rewrite /e; apply: withinD; apply: withinM.
- apply: withinN; apply: dd => //.
    by rewrite subr_ge0 st /= ler_add2l ler_opp2.
  by rewrite /x /y -addrA ler_add2l ler_oppl opprD opprK ler_subl_addr.
- by apply: (proj1 hK); rewrite s0 (le_trans st).
- have -> : M * dt = M * `|x + dt - x| by rewrite addrAC subrr add0r ger0_norm.
  by apply: (proj2 hB); [rewrite addr_ge0 // xT | rewrite xx (le_trans _ xT) // ler_addl].
- apply: within_le (proj2 hK _ _ _ _); first apply: ler_wpmul2l => //.
  + by rewrite ger0_norm ?subr_ge0 // ler_subl_addl.
  + by rewrite s0 (le_trans st).
  + by rewrite tj (le_trans tjt).
Qed.

Lemma near_coer B c : 0 < c -> lipschitz M T B -> coer c (B 0) ->
  exists2 dt1, 0 < dt1 & forall dt, 0 < dt <= dt1 -> dt <= T -> coer (2 * c) (B dt).
Proof.
move=> c0 hB hc.
have [dt1 p1 small] := @small_step (c * (d%:R * M)) ltac:(by rewrite !mulr_ge0 ?ler0n ?(ltW c0)).
exists dt1 => // dt /andP[dt0 dtle] dtT.
apply: (coer_near (e := M * dt) (ltW c0) hc).
  have -> : M * dt = M * `|dt - 0| by rewrite subr0 ger0_norm ?(ltW dt0).
  by apply: (proj2 hB); rewrite ?lexx ?(ltW dt0).
by have := small dt; rewrite dt0 dtle => /(_ isT); rewrite -!mulrA.
Qed.

Lemma first_rect_converges B Bd D dbb Dd K k0 : B 0 \in unitmx -> lipschitz M T B -> lipschitz M T K ->
  derivative M T B Bd -> volterra1 T B D K ->
  exists C, exists2 dt1, 0 < dt1 & 0 <= C /\ forall dt N, 0 < dt <= dt1 -> (1 < N)%N -> N.-1%:R * dt <= T ->
    exists2 ker, compute_kernel dt N (Corrs (samples dt N B) (samples dt N D) (samples dt N Dd) dbb)
        MRect k0 = Ok (mkseq (fun i => i%:R * dt) N, ker) &
      size ker = N /\ forall i, (i.+1 < N)%N -> within (C * dt) (ker`_i - K (i%:R * dt)).
Proof.
move=> u hB hK dB eq; have [c c0 hc] := unit_coer u.
have c0' : 0 <= 2 * c by rewrite mulr_ge0 ?ler0n ?(ltW c0).
have q0 : 0 <= 2 * c * (d%:R * M) by rewrite !mulr_ge0 ?ler0n ?(ltW c0).
pose Z : R := LC d M + T * (d%:R * (4%:R * M * M) + d%:R * (M * M)).
have r0 : 0 <= Z by rewrite addr_ge0 ?LC_ge0 // mulr_ge0 // addr_ge0 // !mulr_ge0 ?ler0n.
have e0 : 0 <= exp (2 * c * (d%:R * M) * T) by apply/leRP/Rlt_le/exp_pos.
have [dt1 p1 near] := near_coer c0 hB hc.
exists (2 * c * Z * exp (2 * c * (d%:R * M) * T)), dt1 => //; split; first by rewrite !mulr_ge0 ?(ltW c0) ?ler0n.
move=> dt N /andP[dt0 dtle] N1 le.
have B1E : (samples dt N B)`_1 = B dt by rewrite nth_samples ?mul1r.
have dtT : dt <= T by have := grid dt0 le N1; rewrite mul1r => /andP[].
have hc' : coer (2 * c) (samples dt N B)`_1 by rewrite B1E; apply: near; rewrite ?dt0.
have [ker Ek [sk sol]] := ck_rect (samples dt N Dd) (size_samples dt N B) (size_samples dt N D) dbb k0 N1 (step_unit dt0 (coer_unit hc')).
exists ker => //; split=> // i li.
have D0 : (samples dt N D)`_0 = 0.
  rewrite nth_samples ?mul0r ?(ltnW N1) //.
  by have := eq 0; rewrite lexx T0 => /(_ isT); rewrite mint_point => /esym/eqP; rewrite oppr_eq0 => /eqP.
have h := @first_rect_error _ d m dt (2 * c) M (Z * dt) (samples dt N B) (samples dt N D) ker
  (fun i => K (i%:R * dt)) dt0 c0' M0 (mulr_ge0 r0 (ltW dt0)) _ hc' sol D0.
apply: within_le (h _ _ i _); rewrite ?size_samples //.
- have -> : 2 * c * Z * exp (2 * c * (d%:R * M) * T) * dt = 2 * c * (Z * dt) * exp (2 * c * (d%:R * M) * T).
    by rewrite [LHS]mulrAC !mulrA.
  apply: ler_wpmul2l; first by rewrite mulr_ge0 // mulr_ge0 ?(ltW dt0).
  by apply: pow_exp_T; rewrite ?(ltW dt0) //; have /andP[_] := grid dt0 le (ltnW li).
- move=> j lj; rewrite !nth_samples ?(ltnW lj) //.
  have -> : M * dt = M * `|j.+1%:R * dt - j%:R * dt|.
    by rewrite -mulrBl -natrB // subSnn mul1r ger0_norm ?(ltW dt0).
  by apply: (proj2 hB); [exact: grid dt0 le lj | exact: grid dt0 le (ltnW lj)].
- move=> j lj; have := withinN (first_residual hB hK dB dt0 le lj); rewrite /=.
  rewrite eq; last exact: grid dt0 le lj.
  rewrite eq; last exact: grid dt0 le (ltnW lj).
  rewrite -(nth_samples dt D lj) -(nth_samples dt D (ltnW lj)).
  set x := rect_rule _ _ _; set x' := rect_rule _ _ _ => h'.
  set p := (samples dt N D)`_j.+1 in h' *; set q := (samples dt N D)`_j in h' *.
  by have -> : x + p - (x' + q) = - (- p - x - (- q - x')) by abel.
- by move: li; clear; case: N.
Qed.

(** *** The first sample of the midpoint method *)
Lemma midpoint_half B D dxs dbb K k0 : B 0 \in unitmx -> lipschitz M T B -> lipschitz M T K -> volterra1 T B D K ->
  exists C, exists2 dt1, 0 < dt1 & 0 <= C /\ forall dt N times ker, 0 < dt <= dt1 -> (1 < N)%N -> dt <= T ->
    compute_kernel dt N (Corrs (samples dt N B) (samples dt N D) dxs dbb) MMidpoint k0 = Ok (times, ker) ->
    within (C * dt) (ker`_0 - 2^-1 *: K 0).
Proof.
move=> u hB hK eq; have [c c0 hc] := unit_coer u.
have [dt1 p1 near] := near_coer c0 hB hc.
exists (c * LC d M), dt1 => //; split; first by rewrite mulr_ge0 ?LC_ge0 ?(ltW c0).
move=> dt N times ker /andP[dt0 dtle] N1 dtT /kernel_values /= /(_ 0%N).
rewrite /= size_samples leq_max big_ord0 add0r muln0 add0n => /(_ isT).
rewrite !nth_samples // mul1r -eq ?dtT ?(ltW dt0) // => E.
have H := conv_lip hB hK dtT.
have h := @mint_const_err _ _ (LC d M) 0 dt (LC d M * dt) (B (dt - 0) *m K 0) _ (ltW dt0) H.
have {}h : within (dt * (LC d M * dt)) (dt *: (B dt *m (2 *: ker`_0 - K 0))).
  rewrite mulmxBr -scalemxAr scalerBr scalerA [dt * 2]mulrC E.
  rewrite -[dt in dt *: _]subr0 -[dt in dt * (_ * _)]subr0 -[dt in B dt *m K 0]subr0; apply: h => s /andP[h1 h2].
  apply: within_le (H _ _ _ _).
  - by apply: ler_wpmul2l; rewrite ?LC_ge0 // subr0 ger0_norm.
  - by rewrite h1.
  - by rewrite lexx (ltW dt0).
have {}h : within (LC d M * dt) (B dt *m (2 *: ker`_0 - K 0)).
  have := withinZp (x := dt^-1) _ h; rewrite scalerA mulVf ?gt_eqF // scale1r mulKf ?gt_eqF //.
  by apply; rewrite invr_ge0 (ltW dt0).
have := near dt; rewrite dt0 dtle => /(_ isT dtT _ _ _ h) => h2.
have := withinZp (x := 2^-1) _ h2; rewrite scalerBr scalerA mulVf ?pnatr_eq0 // scale1r.
have -> : 2^-1 * (2 * c * (LC d M * dt)) = c * LC d M * dt by rewrite -!mulrA mulKf ?pnatr_eq0.
by apply; rewrite invr_ge0 ler0n.
Qed.
End Main.
