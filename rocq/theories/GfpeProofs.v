(** * Conserved combinations of states in the Fokker-Planck workflow. *)
From mathcomp Require Import all_ssreflect all_algebra.
From mathcomp Require Import complex zify.
From Verif Require Import Base Tactics FKernel Model Estimator EstimatorSpec Quadrature FKernelSpec Correlation CorrelationSpec CorrsLoop Gfpe.
From Verif Require Import FKernelProofs FKernelProofs2 FKernelLaws FKernelLaws2 VolterraMain EvolveProofs MemorySpec EstimatorProofs EstimatorProofs2 EstimatorProofs3 CorrsProofs.
Set Implicit Arguments.
Unset Strict Implicit.
Unset Printing Implicit Defensive.
Import Order.TTheory GRing.Theory Num.Theory.
Local Open Scope ring_scope.

(** ** Kernels: combining the columns of the observable combines the columns of the kernel *)
Section Columns.
Variables (R : realFieldType) (d m q : nat) (U : 'M[R]_(m, q)).
Implicit Types (dt : R) (B Bd : seq 'M[R]_d) (D Dd K : seq 'M[R]_(d, m)).
Local Notation "K %U" := [seq A *m U | A <- K] (at level 2, format "K %U").

Lemma nthU K i : K%U`_i = K`_i *m U.
Proof. by apply: nth_map0; rewrite mul0mx. Qed.

Lemma rect_ruleU h (f : nat -> 'M[R]_(d, m)) n :
  rect_rule h f n *m U = rect_rule h (fun j => f j *m U) n.
Proof. by rewrite (rect_rule_lin h [linear of mulmxr U] f n). Qed.
Lemma trapz_ruleU h (f : nat -> 'M[R]_(d, m)) n :
  trapz_rule h f n *m U = trapz_rule h (fun j => f j *m U) n.
Proof. by rewrite (trapz_rule_lin h [linear of mulmxr U] f n). Qed.

Lemma rectU dt B D K :
  kernel_first_kind_rect dt B D = Ok K -> kernel_first_kind_rect dt B D%U = Ok K%U.
Proof.
case/rect_main=> [[sD s1 uA] [sK z sol]]; apply/rect_main; rewrite !size_map; split=> //; split=> //.
  by rewrite nthU z mul0mx.
move=> i li; rewrite nthU -mulNmx -(sol i li) rect_ruleU.
by apply: rect_rule_eq => j _; rewrite nthU mulmxA.
Qed.

Lemma trapzU dt k0 B D K :
  kernel_first_kind_trapz dt k0 B D = Ok K -> kernel_first_kind_trapz dt (k0 *m U) B D%U = Ok K%U.
Proof.
case/trapz_main=> [[sD s1 uA] [sK z sol]]; apply/trapz_main; rewrite !size_map; split=> //; split=> //.
  by rewrite nthU z.
move=> i li; rewrite nthU -mulNmx -(sol i li) trapz_ruleU.
by apply: trapz_rule_eq => j _; rewrite nthU mulmxA.
Qed.

Lemma rect2U dt k0 (B0 : 'M[R]_d) Bd Dd K :
  kernel_second_kind_rect dt k0 B0 Bd Dd = Ok K ->
  kernel_second_kind_rect dt (k0 *m U) B0 Bd Dd%U = Ok K%U.
Proof.
case/rect2_main=> [[sD s1 uA] [sK z sol]]; apply/rect2_main; rewrite !size_map; split=> //; split=> //.
  by rewrite nthU z.
move=> i li; rewrite !nthU mulmxA (sol i li) mulmxDl rect_ruleU; congr (_ + _).
by apply: rect_rule_eq => j _; rewrite nthU mulmxA.
Qed.

Lemma trapz2U dt k0 (B0 : 'M[R]_d) Bd Dd K :
  kernel_second_kind_trapz dt k0 B0 Bd Dd = Ok K ->
  kernel_second_kind_trapz dt (k0 *m U) B0 Bd Dd%U = Ok K%U.
Proof.
case/trapz2_main=> [[sD s1 uA] [sK z sol]]; apply/trapz2_main; rewrite !size_map; split=> //; split=> //.
  by rewrite nthU z.
move=> i li; rewrite !nthU mulmxA (sol i li) mulmxDl trapz_ruleU; congr (_ + _).
by apply: trapz_rule_eq => j _; rewrite nthU mulmxA.
Qed.

Lemma midU dt B D K :
  kernel_first_kind_midpoint dt B D = Ok K -> kernel_first_kind_midpoint dt B D%U = Ok K%U.
Proof.
case/mid_main=> [[sD s1 uA] [sK z sol]]; apply/mid_main; rewrite !size_map; split=> //; split=> //.
  by move=> j lj; rewrite nthU z ?mul0mx.
move=> i li; rewrite !nthU -mulNmx -(sol i li) -scalemxAl mulmxDl mulmx_suml mulmxA; congr (_ *: (_ + _)).
by apply: eq_bigr => j _; rewrite nthU mulmxA.
Qed.

End Columns.

Lemma res_inj (A : Type) (x y : A) : Ok x = Ok y -> x = y.
Proof. by case. Qed.

(** ** Zero right-hand sides *)
Section Zero.
Variables (R : realFieldType) (d q : nat).
Implicit Types (dt : R) (B Bd : seq 'M[R]_d) (D Dd K : seq 'M[R]_(d, q)).
Let zeros n : seq 'M[R]_(d, q) := nseq n 0.
Lemma nth0s n i : (zeros n)`_i = 0. Proof. by rewrite nth_nseq if_same. Qed.

Lemma rect_rule00 h B i n (K : seq 'M[R]_(d, q)) : (forall j, K`_j = 0) ->
  rect_rule h (fun j => B`_(i - j) *m K`_j) n = 0.
Proof. by move=> z; rewrite /rect_rule big1 ?scaler0 // => j _; rewrite z mulmx0. Qed.
Lemma trapz_rule00 h B i n (K : seq 'M[R]_(d, q)) : (forall j, K`_j = 0) ->
  trapz_rule h (fun j => B`_(i - j) *m K`_j) n = 0.
Proof.
by move=> z; rewrite /trapz_rule big1 ?scaler0 // => j _; rewrite !z !mulmx0 addr0 scaler0.
Qed.

Lemma rect_zero dt B D K : (forall i, D`_i = 0) ->
  kernel_first_kind_rect dt B D = Ok K -> forall i, K`_i = 0.
Proof.
move=> z E; have [[sD s1 uA] _] := (rect_main _ _ _ _).1 E.
have : kernel_first_kind_rect dt B D = Ok (zeros (size B)).
  apply/rect_main; split=> //; split; rewrite ?size_nseq //; first exact: nth0s.
  by move=> i _; rewrite z oppr0 rect_rule00 // => j; exact: nth0s.
by rewrite E => -[->] i; exact: nth0s.
Qed.

Lemma trapz_zero dt B D K : (forall i, D`_i = 0) ->
  kernel_first_kind_trapz dt 0 B D = Ok K -> forall i, K`_i = 0.
Proof.
move=> z E; have [[sD s1 uA] _] := (trapz_main _ _ _ _ _).1 E.
have : kernel_first_kind_trapz dt 0 B D = Ok (zeros (size B)).
  apply/trapz_main; split=> //; split; rewrite ?size_nseq //; first exact: nth0s.
  by move=> i _; rewrite z oppr0 trapz_rule00 // => j; exact: nth0s.
by rewrite E => -[->] i; exact: nth0s.
Qed.

Lemma rect2_zero dt (B0 : 'M[R]_d) Bd D K : (forall i, D`_i = 0) ->
  kernel_second_kind_rect dt 0 B0 Bd D = Ok K -> forall i, K`_i = 0.
Proof.
move=> z E; have [[sD s1 uA] _] := (rect2_main _ _ _ _ _ _).1 E.
have : kernel_second_kind_rect dt 0 B0 Bd D = Ok (zeros (size Bd)).
  apply/rect2_main; split=> //; split; rewrite ?size_nseq //; first exact: nth0s.
  by move=> i _; rewrite z nth0s mulmx0 addr0 rect_rule00 // => j; exact: nth0s.
by rewrite E => -[->] i; exact: nth0s.
Qed.

Lemma trapz2_zero dt (B0 : 'M[R]_d) Bd D K : (forall i, D`_i = 0) ->
  kernel_second_kind_trapz dt 0 B0 Bd D = Ok K -> forall i, K`_i = 0.
Proof.
move=> z E; have [[sD s1 uA] _] := (trapz2_main _ _ _ _ _ _).1 E.
have : kernel_second_kind_trapz dt 0 B0 Bd D = Ok (zeros (size Bd)).
  apply/trapz2_main; split=> //; split; rewrite ?size_nseq //; first exact: nth0s.
  by move=> i _; rewrite z nth0s mulmx0 addr0 trapz_rule00 // => j; exact: nth0s.
by rewrite E => -[->] i; exact: nth0s.
Qed.

Lemma mid_zero dt B D K : (forall i, D`_i = 0) ->
  kernel_first_kind_midpoint dt B D = Ok K -> forall i, K`_i = 0.
Proof.
move=> z E; have [[sD s1 uA] _] := (mid_main _ _ _ _).1 E.
have : kernel_first_kind_midpoint dt B D = Ok (zeros (midpoint_len (size B))).
  apply/mid_main; split=> //; split; first by rewrite size_nseq.
    by move=> j _; exact: nth0s.
  move=> i _.
  by rewrite z oppr0 nth0s mulmx0 addr0 big1 ?scaler0 // => j _; rewrite nth0s mulmx0.
rewrite E => H i; have := res_inj H => ->; exact: nth0s.
Qed.

End Zero.

(** ** [compute_kernel] *)
Section Kernel.
Variables (R : realFieldType) (k o q : nat) (U : 'M[R]_(o, q)).

Definition annihilates n (s : seq 'M[R]_(n, o)) : Prop := forall i, s`_i *m U = 0.

Lemma kernel_annihilated (dt : R) N (c : corrs_data R k o) mt k0 times ker :
  compute_kernel dt N c mt k0 = Ok (times, ker) ->
  annihilates (bkdx c) -> annihilates (dotbkdx c) -> (forall k1, k0 = Some k1 -> k1 *m U = 0) ->
  annihilates ker.
Proof.
move=> E zb zd zk; move: E; rewrite /compute_kernel /guard.
case: (0 < N)%N => //=.
have zU (s : seq 'M[R]_(k, o)) : annihilates s -> forall i, ([seq A *m U | A <- s])`_i = 0.
  by move=> z i; rewrite nthU.
have init k1 : (if needs_k0 mt then initial_k0 c k0 else Ok 0) = Ok k1 -> k1 *m U = 0.
  case: ifP => _ [] //; last by move=> <-; rewrite mul0mx.
  rewrite /initial_k0; case: (k0) zk => [k2|] zk; first by case=> <-; exact: zk.
  case: (rd (bkbk c) 0) => //= b0; case Ed: (rd (dotbkdx c) 0) => [d0|] //=.
  rewrite /solve_linear; case: (finv b0) => //= bi [<-]; rewrite -mulmxA.
  have -> : d0 = (dotbkdx c)`_0 by move: Ed; rewrite /rd; case: (dotbkdx c) => //= ? ? [].
  by rewrite zd mulmx0.
case E0: (if needs_k0 mt then _ else _) => [k1|] //=; have z1 := init _ E0.
have fin (tk : res (seq R * seq 'M[R]_(k, o))) : 
  (forall t s, tk = Ok (t, s) -> annihilates s) ->
  (let! tk := tk in let! _ := (if size tk.1 == size tk.2 then Ok tt else Err ValueError) in Ok tk) = Ok (times, ker) ->
  annihilates ker.
  case: tk => [[t s]|] //= H; case: (_ == _) => //= -[_ <-]; exact: (H t).
apply: fin => t s.
case: (mt).
- case E: (kernel_first_kind_rect _ _ _) => [K|] //= [_ <-] i.
  by have := rect_zero (zU _ zb) (rectU U E) i; rewrite nthU.
- case E: (kernel_first_kind_midpoint _ _ _) => [K|] //= [_ <-] i.
  by have := mid_zero (zU _ zb) (midU U E) i; rewrite nthU.
- case E: (kernel_first_kind_midpoint dt _ _) => [K|] //=.
  case E3: (kernel_first_kind_midpoint _ _ _) => [K3|] //=.
  rewrite /richardson; case: ifP => //= _ [_ <-] i.
  case li: (i < size (take (size K3) (stride3 K)))%N; last first.
    by rewrite nth_default ?mul0mx // size_mkseq leqNgt li.
  rewrite nth_mkseq // -scalemxAl mulmxBl -scalemxAl.
  have zK j : K`_j *m U = 0 by have := mid_zero (zU _ zb) (midU U E) j; rewrite nthU.
  have zK3 j : K3`_j *m U = 0.
    have z3 : annihilates (stride3 (bkdx c)).
      move=> l; case ll: (l < (size (bkdx c) + 2) %/ 3)%N; first by rewrite nth_mkseq.
      by rewrite nth_default ?mul0mx // size_mkseq leqNgt ll.
    by have := mid_zero (zU _ z3) (midU U E3) j; rewrite nthU.
  rewrite zK3 nth_take; last by move: li; rewrite size_take; case: ifP => // ?; lia.
  rewrite nth_mkseq ?zK ?scaler0 ?subr0 ?scaler0 //.
  by move: li; rewrite size_take size_mkseq; case: ifP => // ?; lia.
- case E: (kernel_first_kind_trapz _ _ _ _) => [K|] //= [_ <-] i.
  have zK j : K`_j *m U = 0.
    by have := trapzU U E; rewrite z1 => /(trapz_zero (zU _ zb))/(_ j); rewrite nthU.
  case: i => [|i] //=; case li: (i < size K - 2)%N; last first.
    by rewrite nth_default ?mul0mx // size_mkseq leqNgt li.
  by rewrite /smooth nth_mkseq // -scalemxAl mulmxDl -scalemxAl mulmxDl !zK addr0 scaler0 addr0 scaler0.
- case: (rd (bkbk c) 0) => //= b0; case: (dotbkbk c) => //= dbb.
  case E: (kernel_second_kind_rect _ _ _ _ _) => [K|] //= [_ <-] i.
  by have := rect2U U E; rewrite z1 => /(rect2_zero (zU _ zd))/(_ i); rewrite nthU.
- case: (rd (bkbk c) 0) => //= b0; case: (dotbkbk c) => //= dbb.
  case E: (kernel_second_kind_trapz _ _ _ _ _) => [K|] //= [_ <-] i.
  by have := trapz2U U E; rewrite z1 => /(trapz2_zero (zU _ zd))/(_ i); rewrite nthU.
- by [].
Qed.

End Kernel.

(** ** Force and correlations *)
Lemma In_nth (T : Type) (x0 : T) (s : seq T) i : (i < size s)%N -> List.In (nth x0 s i) s.
Proof. by elim: s i => [|x s IH] [|i] //= li; [left | right; exact: IH]. Qed.

Section Workflow.
Variables (R : rcfType) (w : nat -> R[i]) (dx o q : nat).
Hypothesis wP : forall k, (2 ^ k.+1)%N.-primitive_root (w (2 ^ k.+1)%N).
Variables (m : model_fns R dx o) (U : 'M[R]_(o, q)).
Implicit Types (trajs : seq (seq (sample R dx o))).

Lemma mean_product0 S p r (e : S -> 'rV[R]_p) (f : S -> 'rV[R]_r) (V : 'M[R]_(r, q)) xs :
  (forall s, List.In s xs -> f s *m V = 0) -> mean_product e f xs *m V = 0.
Proof.
move=> z; apply/matrixP => i j; rewrite !mxE.
under eq_bigr do rewrite mxE -mulrA mulr_suml.
rewrite -mulr_sumr exchange_big /= (_ : \sum_(s <- xs) _ = 0) ?mulr0 //.
elim: xs z => [|s xs IH] z; first by rewrite big_nil.
rewrite big_cons IH ?addr0; last by move=> t tx; apply: z; right.
under eq_bigr do rewrite -mulrA; rewrite -mulr_sumr.
by have := congr1 (fun A : 'M_(_, _) => A 0 j) (z s (or_introl erefl)); rewrite !mxE => ->; rewrite mulr0.
Qed.

Lemma traj_corr0U S p r (e : S -> 'rV[R]_p) (f : S -> 'rV[R]_r) (V : 'M[R]_(r, q)) (xva : seq S) n :
  (forall s, List.In s xva -> f s *m V = 0) -> traj_corr e f xva n *m V = 0.
Proof.
move=> z; apply/matrixP => i j; rewrite !mxE.
under eq_bigr do rewrite mxE /corr_estimate -mulrA mulr_suml.
rewrite -mulr_sumr exchange_big /= big1 ?mulr0 // => t _.
under eq_bigr do rewrite -mulrA; rewrite -mulr_sumr.
set x := (X in _ * X = _).
suff -> : x = 0 by rewrite mulr0.
rewrite /x {x}; move: (t + n)%N => {t n} a.
case la: (a < size xva)%N; last first.
  by rewrite big1 // => l _; rewrite nth_default ?mul0r // size_map leqNgt la.
case: xva z la => [|s0 xva] // z la.
have := congr1 (fun A : 'M_(_, _) => A 0 j) (z (nth s0 (s0 :: xva) a) (In_nth s0 la)); rewrite !mxE => H.
by rewrite -[RHS]H; apply: eq_bigr => l _; rewrite (nth_map s0).
Qed.

Lemma pooled_corr0U S p r (e : S -> 'rV[R]_p) (f : S -> 'rV[R]_r) (V : 'M[R]_(r, q)) (trajs : seq (seq S)) n :
  (forall s, List.In s (flatten trajs) -> f s *m V = 0) -> pooled_corr e f trajs n *m V = 0.
Proof.
move=> z; rewrite /pooled_corr; move: (size (flatten trajs))%:R => W.
elim: trajs z => [|t l IH] z; first by rewrite big_nil mul0mx.
rewrite big_cons mulmxDl IH ?addr0 => [|s sl]; last by apply: z; apply: List.in_or_app; right.
rewrite -scalemxAl traj_corr0U ?scaler0 // => s sl.
by apply: z; apply: List.in_or_app; left.
Qed.

(** If a combination [U] of the observables vanishes on every sample, so does that combination of the
    force coefficients and of the correlations with the projected observable. *)
Lemma force_annihilated trajs c G :
  compute_mean_force m trajs = Ok (c, G) ->
  (forall s, List.In s (flatten trajs) -> s_obs s *m U = 0) -> c *m U = 0.
Proof.
case/mean_force_ok=> _ _ uG EG z.
have : G *m (c *m U) = 0 by rewrite mulmxA EG mean_product0.
by move=> H; rewrite -[c]mul1mx -(mulVmx uG) -!mulmxA H mulmx0.
Qed.

Lemma corrs_annihilated rt so trunc c trajs cd :
  c *m U = 0 -> (forall s, List.In s (flatten trajs) -> s_obs s *m U = 0) ->
  (0 < trunc)%N -> (0 < size trajs)%N -> (forall t, List.In t trajs -> (trunc <= size t)%N) ->
  compute_corrs (m := m) w rt so trunc (Some c) trajs = Ok cd ->
  annihilates U (bkdx cd) /\ annihilates U (dotbkdx cd).
Proof.
move=> zc zs t0 n0 ts; rewrite compute_corrs_ok // => -[<-] /=.
have zo (s : sample R dx o) : List.In s (flatten trajs) -> ortho c s *m U = 0.
  by move=> sl; rewrite /ortho mulmxBl zs // -mulmxA zc mulmx0 subr0.
have mk p (f : nat -> 'M[R]_(p, o)) n : (forall i, f i *m U = 0) -> annihilates U (mkseq f n).
  move=> z i; case li: (i < n)%N; first by rewrite nth_mkseq.
  by rewrite nth_default ?mul0mx // size_mkseq leqNgt li.
by split; apply: mk => i; exact: pooled_corr0U.
Qed.

End Workflow.

(** ** Evolution *)
Section EvolveConserved.
Variables (R : realFieldType) (N p q : nat) (U : 'M[R]_(N, q)).

Lemma mem_integrandU (G : seq 'M[R]_(p, N)) K i j : annihilates U K -> mem_integrand G K i j *m U = 0.
Proof. by move=> z; rewrite /mem_integrand -mulmxA z mulmx0. Qed.

Lemma ide_conserved a ml dt (K : seq 'M[R]_N) F (G : seq 'M[R]_(p, N)) (E0 : 'M[R]_(p, N)) len :
  annihilates U K -> F *m U = 0 -> G`_0 = E0 ->
  (forall i, (0 < i < len)%N -> ide_coded a (ml i) dt K F G i) ->
  forall i, (i < len)%N -> G`_i *m U = E0 *m U.
Proof.
move=> zK zF G0 H; elim=> [|i IH] li; first by rewrite G0.
rewrite -(IH (ltnW li)); apply/eqP; rewrite -subr_eq0 -mulmxBl (H i.+1 li) /= -scalemxAl mulmxBl mulmxDl.
rewrite -[_ *m F *m U]mulmxA zF mulmx0 -scalemxAl -[_ *m K`_0 *m U]mulmxA zK mulmx0 scaler0 add0r.
rewrite /evol_sum -scalemxAl mulmx_suml big1 => [|j _]; last exact: mem_integrandU.
by rewrite !(scaler0, add0r, oppr0).
Qed.

Lemma annihilates_take (K : seq 'M[R]_N) n : annihilates U K -> annihilates U (take n K).
Proof.
move=> z i; case li: (i < n)%N; first by rewrite nth_take.
by rewrite nth_default ?mul0mx // size_take; case: ifP => ?; lia.
Qed.

Lemma evolve_conserved dt (G0 : 'M[R]_(p, N)) len mt ti F K r :
  evolve_volterra dt G0 len mt ti F K = Ok r -> mt <> EStab -> annihilates U K -> F *m U = 0 ->
  forall i, (i < len)%N -> (r.2)`_i *m U = G0 *m U.
Proof.
rewrite /evolve_volterra; case: eqP => //= _; set T := take _ _ => E ns zK zF; have zT : annihilates U T by exact: annihilates_take.
case: mt E ns => //.
- case E: (solve_ide_rect _ _ _ _ _) => [G|] //= [<-] _.
  by have [_ [_ h0 H]] := (ide_rect_charact _ _ _ _ _ _).1 E; exact: (ide_conserved zT zF h0 H).
- case E: (solve_ide_trapz _ _ _ _ _) => [G|] //= [<-] _.
  by have [_ [_ h0 H]] := (ide_trapz_charact _ _ _ _ _ _).1 E; exact: (ide_conserved zT zF h0 H).
Qed.
End EvolveConserved.

(** ** The whole workflow *)
Section Main.
Variables (R : rcfType) (w : nat -> R[i]) (dx N q : nat).
Hypothesis wP : forall k, (2 ^ k.+1)%N.-primitive_root (w (2 ^ k.+1)%N).
Variables (val : 'rV[R]_dx -> 'rV[R]_N) (der : 'rV[R]_dx -> 'M[R]_(N, dx)) (U : 'M[R]_(N, q)).

Lemma In_flatten_map (A B : Type) (f : A -> B) (l : seq (seq A)) y :
  List.In y (flatten [seq [seq f x | x <- t] | t <- l]) -> exists x, y = f x.
Proof.
elim: l => [|t l IH] //= H; case: (List.in_app_or _ _ _ H) => {H} H; last exact: IH.
by elim: t H => [|x t IH2] //= [<-|/IH2//]; exists x.
Qed.

Lemma gfpe_conserves o (trajs : seq (seq (sample R dx o))) rt so trunc dt mt k0 r :
  (forall x, U^T *m der x = 0) ->
  (0 < trunc)%N -> (forall t, List.In t trajs -> (trunc <= size t)%N) ->
  (forall k1, k0 = Some k1 -> k1 *m U = 0) ->
  run_gfpe w val der trajs rt so trunc dt mt k0 = Ok r ->
  g_force r *m U = 0 /\ (forall i, (g_kernel r)`_i *m U = 0).
Proof.
move=> zder t0 ts zk; rewrite /run_gfpe; set tr := to_gfpe _ _ _ => H.
unbind H cG Emf; unbind H cd Ec; unbind H tk Eke.
case: cG Emf Ec H => c G Emf Ec /= H; case: tk Eke H => times ker Eke /= [<-] /=.
have zs s : List.In s (flatten tr) -> s_obs s *m U = 0.
  rewrite /tr /to_gfpe => sl; have [s' ->] := In_flatten_map sl; rewrite /gfpe_sample /= /s_obs /=.
  apply/matrixP => i j; rewrite !mxE.
  under eq_bigr do rewrite mxE mulr_suml.
  rewrite exchange_big /= big1 // => l _.
  have /(congr1 (fun A : 'M_(_, _) => A j l)) := zder (s_x s'); rewrite !mxE => H.
  rewrite (eq_bigr (fun k => s_v s' 0 l * (U^T j k * der (s_x s') k l))); last first.
    by move=> k _; rewrite mxE mulrAC mulrC [_ * U _ _]mulrC.
  by rewrite -mulr_sumr H mulr0.
have zc := force_annihilated Emf zs.
have [ne _ _ _] := (mean_force_ok _ _ _).1 Emf; have [n0 _] := all_nonemptyP ne.
have ts' t : List.In t tr -> (trunc <= size t)%N.
  rewrite /tr /to_gfpe; elim: trajs ts {Emf Ec Eke zs ne n0 tr} => [|u l IH] ts //= [<-|tl].
    by rewrite size_map; apply: ts; left.
  by apply: IH => // v vl; apply: ts; right.
have [zb zd] := corrs_annihilated wP zc zs t0 n0 ts' Ec.
by split=> //; exact: (kernel_annihilated Eke zb zd zk).
Qed.

Lemma gfpe_evolution_conserves o (trajs : seq (seq (sample R dx o))) rt so trunc dt mt k0 r
    p (G0 : 'M[R]_(p, N)) len em ti res :
  (forall x, U^T *m der x = 0) ->
  (0 < trunc)%N -> (forall t, List.In t trajs -> (trunc <= size t)%N) ->
  (forall k1, k0 = Some k1 -> k1 *m U = 0) ->
  run_gfpe w val der trajs rt so trunc dt mt k0 = Ok r -> em <> EStab ->
  evolve_volterra dt G0 len em ti (g_force r) (g_kernel r) = Ok res ->
  forall i, (i < len)%N -> (res.2)`_i *m U = G0 *m U.
Proof.
move=> z t0 ts zk E ne Ee; have [zF zK] := gfpe_conserves z t0 ts zk E.
exact: (evolve_conserved Ee).
Qed.
End Main.

(** ** [evolve_volterra] of the model class *)
Section ModelEvolve.
Variables (R : realFieldType) (N p : nat) (dt : R).
Implicit Types (K : seq 'M[R]_N) (F : 'M[R]_N) (G : seq 'M[R]_(p, N)).

(** Number of kernel samples kept for the requested truncation. *)
Definition kept (ti : option nat) (n : nat) : nat := if ti is Some m then if m == 0%N then n else minn m n else n.

Lemma keptE ti K : take (if ti is Some n.+1 then n.+1 else size K) K = take (kept ti (size K)) K.
Proof.
case: ti => [[|m]|] //=; rewrite /minn; case: ltnP => // le.
by rewrite take_size take_oversize.
Qed.

Lemma kept_le ti n : (kept ti n <= n)%N.
Proof. by case: ti => [[|m]|] //=; rewrite geq_minr. Qed.

Lemma rect_take G K i q n : (n <= q)%N -> (q <= size K)%N ->
  rect_rule dt (mem_integrand G (take q K) i) n = rect_rule dt (mem_integrand G K i) n.
Proof.
move=> nq qK; rewrite /rect_rule; congr (_ *: _); apply: eq_bigr => j _.
by rewrite /mem_integrand nth_take //; have := ltn_ord j; lia.
Qed.

Lemma trapz_take G K i q n : (n < q)%N -> (q <= size K)%N ->
  trapz_rule dt (mem_integrand G (take q K) i) n = trapz_rule dt (mem_integrand G K i) n.
Proof.
move=> nq qK; rewrite /trapz_rule; congr (_ *: _); apply: eq_bigr => j _.
by have lj := ltn_ord j; rewrite /mem_integrand !nth_take //; lia.
Qed.

Lemma model_trapz (G0 : 'M[R]_(p, N)) len ti F K T G :
  let q := kept ti (size K) in (1 < q)%N ->
  evolve_volterra dt G0 len ETrapz ti F K = Ok (T, G) <->
  ([/\ p = N, (0 < len)%N & 1%:M + (2^-1 * dt ^+ 2) *: K`_0 \in unitmx] /\
   [/\ T = mkseq (fun i => i%:R * dt) len, size G = len, G`_0 = G0
     & forall i, (0 < i < len)%N ->
         let n := minn i q.-1 in
         G`_i - G`_i.-1
         = dt *: (G`_i.-1 *m F - (trapz_rule dt (mem_integrand G K i) n
                                  - (2^-1 * dt) *: mem_integrand G K i n))]).
Proof.
move=> q q1; rewrite /evolve_volterra keptE -/q.
have qK : (q <= size K)%N by exact: kept_le.
have sq : size (take q K) = q by rewrite size_takel.
have [pN|pN] := eqVneq p N; last first.
  by split=> //= -[[E _ _] _]; case/eqP: pN.
rewrite /=; set r := solve_ide_trapz _ _ _ _ _.
have k1 : (1 < size (take q K))%N by rewrite sq.
have main H := evolve_trapz_main dt len G0 F H k1.
have e0 : (take q K)`_0 = K`_0 by rewrite nth_take //; lia.
have ee H i : (0 < i < len)%N -> let n := minn i q.-1 in
  trapz_rule dt (mem_integrand H (take q K) i) n - (2^-1 * dt) *: mem_integrand H (take q K) i n
  = trapz_rule dt (mem_integrand H K i) n - (2^-1 * dt) *: mem_integrand H K i n :> 'M[R]_(p, N).
  by move=> ri n; rewrite trapz_take /mem_integrand ?nth_take // /n; lia.
split.
  case Er: r => [H|e] //= -[<- E]; rewrite -E.
  have [[c1 c2] [c3 c4 c5]] := (main H).1 Er; rewrite -e0; split=> //; split=> //.
  by move=> i ri; rewrite c5 // sq ee.
move=> [[_ c1 c2] [-> c3 c4 c5]]; have -> : r = Ok G; last by [].
apply/main; rewrite e0; split=> //; split=> // i ri n.
by rewrite c5 // /n sq ee.
Qed.

Lemma model_rect (G0 : 'M[R]_(p, N)) len ti F K T G :
  let q := kept ti (size K) in
  evolve_volterra dt G0 len ERect ti F K = Ok (T, G) <->
  ([/\ p = N, (0 < len)%N, (0 < q)%N & 1%:M + dt ^+ 2 *: K`_0 \in unitmx] /\
   [/\ T = mkseq (fun i => i%:R * dt) len, size G = len, G`_0 = G0
     & forall i, (0 < i < len)%N ->
         G`_i - G`_i.-1
         = dt *: (G`_i.-1 *m F - rect_rule dt (mem_integrand G K i) (maxn (minn i q.-1).-1 1))]).
Proof.
move=> q; rewrite /evolve_volterra keptE -/q.
have qK : (q <= size K)%N by exact: kept_le.
have sq : size (take q K) = q by rewrite size_takel.
have [pN|pN] := eqVneq p N; last first.
  by split=> //= -[[E _ _ _] _]; case/eqP: pN.
rewrite /=; set r := solve_ide_rect _ _ _ _ _.
have main H := evolve_rect_main dt len (take q K) G0 F H.
split.
  case Er: r => [H|e] //= -[<- E]; rewrite -E.
  have [[c1 c2 c2'] [c3 c4 c5]] := (main H).1 Er; rewrite sq in c2.
  have e0 : (take q K)`_0 = K`_0 by rewrite nth_take //; lia.
  rewrite -e0; split=> //; split=> //.
  by move=> i ri; rewrite c5 // sq rect_take //; lia.
move=> [[_ c1 c2 c2'] [-> c3 c4 c5]]; have -> : r = Ok G; last by [].
have e0 : (take q K)`_0 = K`_0 by rewrite nth_take //; lia.
apply/main; rewrite e0 sq; split=> //; split=> // i ri.
by rewrite c5 // rect_take //; lia.
Qed.
End ModelEvolve.
