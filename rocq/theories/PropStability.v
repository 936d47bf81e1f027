(** * Property C81: errors of the correlations in the kernel. *)
From Coq Require Import Reals Lra.
From Coquelicot Require Import Coquelicot.
From mathcomp Require Import all_ssreflect all_algebra zify.
From Verif Require Import Base RealsMC Quadrature FKernel Model Estimator FKernelSpec KernelSpec KernelValues FKernelProofs FKernelProofs2.
From Verif Require Import Tactics VolterraMain Convergence ConvergenceProofs ConvergenceInt ConvergenceMain ConvergenceMain2 ConvergenceMain3 StabilityProofs.
Set Implicit Arguments.
Unset Strict Implicit.
Unset Printing Implicit Defensive.
Import Order.TTheory GRing.Theory Num.Theory.
Local Open Scope ring_scope.
Bind Scope ring_scope with Rdefinitions.R.

(** The first [n] samples differ by at most [e] in every entry. *)
Definition near (F : realFieldType) a b n (e : F) (A A' : seq 'M[F]_(a, b)) : Prop :=
  forall i, (i < n)%N -> within e (A`_i - A'`_i).

Section Second.
Variables (F : realFieldType) (k o : nat) (dt : F) (N N' n : nat) (c c' : corrs_data F k o) (dd dd' : seq 'M[F]_k).
Variables (times times' : seq F) (ker ker' : seq 'M[F]_(k, o)) (a M eps eta beta kap : F).

(** Second kind, rectangles.  [eps], [eta], [beta]: errors of the force correlation, of the
    derivative of the basis correlation and of its value at time zero; [kap] bounds one of the
    two kernels; [a] bounds the inverse of the correlation at time zero. *)
Theorem C81_second_rect :
  compute_kernel dt N c MSecondRect None = Ok (times, ker) ->
  compute_kernel dt N' c' MSecondRect None = Ok (times', ker') ->
  dotbkbk c = Some dd -> dotbkbk c' = Some dd' -> (n <= size dd)%N -> (n <= size dd')%N ->
  0 <= dt -> 0 <= a -> 0 <= M -> 0 <= eps -> 0 <= eta -> 0 <= beta -> 0 <= kap ->
  (bkbk c)`_0 \in unitmx -> within a (invmx (bkbk c)`_0) ->
  (forall i, (i < n)%N -> within M dd`_i) ->
  near 1 beta (bkbk c) (bkbk c') -> near n eta dd dd' -> near n eps (dotbkdx c) (dotbkdx c') ->
  (forall i, (i < n)%N -> within kap ker'`_i) ->
  forall i, (i < n)%N ->
    within (k%:R * a * (n%:R * dt * (k%:R * (eta * kap)) + eps + k%:R * (beta * kap))
            * (1 + k%:R * a * (k%:R * M) * dt) ^+ i) (ker`_i - ker'`_i).
Proof.
move=> /kernel_values[dd1 E1 [I _ S]] /kernel_values[dd1' E1' [I' _ S']].
rewrite E1 E1' => -[?] [?]; subst dd1 dd1' => ls ls'.
move=> dt0 a0 M0 e0 n0 b0 k0 u hu hM hB hBd hD hX.
apply: (rect_stable (K := fun i => ker`_i) (X := fun i => ker'`_i) (Bd := fun i => dd`_i) (Bd' := fun i => dd'`_i)
  (Dd := fun i => (dotbkdx c)`_i) (Dd' := fun i => (dotbkdx c')`_i) (B0' := (bkbk c')`_0) _ _ _ _ _ _ _ hM (hB 0%N isT) hBd hD hX) => //.
- by rewrite mulr_ge0 ?ler0n.
- exact: inv_coer.
- case=> [|i] li; last by apply: S; rewrite (leq_trans li).
  by rewrite /rect_rule big_ord0 scaler0 add0r.
- case=> [|i] li; last by apply: S'; rewrite (leq_trans li).
  by rewrite /rect_rule big_ord0 scaler0 add0r.
Qed.

(** Trapezoids: the matrix solved with at each later time is another one. *)
Theorem C81_second_trapz :
  compute_kernel dt N c MSecondTrapz None = Ok (times, ker) ->
  compute_kernel dt N' c' MSecondTrapz None = Ok (times', ker') ->
  dotbkbk c = Some dd -> dotbkbk c' = Some dd' -> (n <= size dd)%N -> (n <= size dd')%N ->
  0 <= dt -> 0 <= a -> 0 <= M -> 0 <= eps -> 0 <= eta -> 0 <= beta -> 0 <= kap ->
  (bkbk c)`_0 \in unitmx -> within a (invmx (bkbk c)`_0) ->
  (bkbk c)`_0 - (2^-1 * dt) *: dd`_0 \in unitmx -> within a (invmx ((bkbk c)`_0 - (2^-1 * dt) *: dd`_0)) ->
  (forall i, (i < n)%N -> within M dd`_i) ->
  near 1 beta (bkbk c) (bkbk c') -> near n eta dd dd' -> near n eps (dotbkdx c) (dotbkdx c') ->
  (forall i, (i < n)%N -> within kap ker'`_i) ->
  forall i, (i < n)%N ->
    within (k%:R * a * (n%:R * dt * (k%:R * (eta * kap)) + eps + k%:R * (beta * kap))
            * (1 + k%:R * a * (k%:R * M) * dt) ^+ i) (ker`_i - ker'`_i).
Proof.
move=> /kernel_values[dd1 E1 [I _ S]] /kernel_values[dd1' E1' [I' _ S']].
rewrite E1 E1' => -[?] [?]; subst dd1 dd1' => ls ls'.
move=> dt0 a0 M0 e0 n0 b0 k0 u hu v hv hM hB hBd hD hX.
apply: (trapz_stable (K := fun i => ker`_i) (X := fun i => ker'`_i) (Bd := fun i => dd`_i) (Bd' := fun i => dd'`_i)
  (Dd := fun i => (dotbkdx c)`_i) (Dd' := fun i => (dotbkdx c')`_i) (B0' := (bkbk c')`_0) _ _ _ _ _ _ _ hM (hB 0%N isT) hBd hD hX) => //.
- by rewrite mulr_ge0 ?ler0n.
- exact: inv_coer.
- exact: inv_coer.
- case=> [|i] li; last by apply: S; rewrite (leq_trans li).
  by rewrite /trapz_rule big_ord0 scaler0 add0r.
- case=> [|i] li; last by apply: S'; rewrite (leq_trans li).
  by rewrite /trapz_rule big_ord0 scaler0 add0r.
Qed.

(** First kind, rectangles: the error of the force correlation is divided by the time step.
    [M]: slope of the basis correlation.  The force correlation at time zero is not read. *)
Theorem C81_first_rect k0 k0' :
  compute_kernel dt N c MRect k0 = Ok (times, ker) ->
  compute_kernel dt N' c' MRect k0' = Ok (times', ker') ->
  bkbk c' = bkbk c ->
  0 < dt -> 0 <= a -> 0 <= M -> 0 <= eps ->
  (bkbk c)`_1 \in unitmx -> within a (invmx (bkbk c)`_1) ->
  (forall i, (i.+1 < size (bkbk c))%N -> within (M * dt) ((bkbk c)`_i.+1 - (bkbk c)`_i)) ->
  (forall i, (0 < i < size (bkbk c))%N -> within eps ((bkdx c)`_i - (bkdx c')`_i)) ->
  forall i, (i.+1 < size (bkbk c))%N ->
    within (k%:R * a * (2 * eps / dt) * (1 + k%:R * a * (k%:R * M) * dt) ^+ i) (ker`_i - ker'`_i).
Proof.
move=> /kernel_values[S _] /kernel_values[S' _] E dt0 a0 M0 e0 u hu hM hD i li; rewrite E in S'.
apply: (first_stable dt0 _ M0 e0 hM hD _ S S'); first by rewrite mulr_ge0 ?ler0n.
- exact: inv_coer.
- by case: (size _) li.
Qed.

(** No factor independent of the time step will do, were the slope zero and the time bounded. *)
Theorem C81_first_refuted (C : F) :
  exists (h : F) (B : seq 'M[F]_1) (D D' : seq 'M[F]_1) dx dbb ts K K',
    [/\ 0 < h <= 1, forall i, (i < 2)%N -> B`_i = 1%:M, near 2 1 D D',
        compute_kernel h 2 (Corrs B D dx dbb) MRect None = Ok (ts, K)
          /\ compute_kernel h 2 (Corrs B D' dx dbb) MRect None = Ok (ts, K')
      & ~ within (C * 1) (K`_0 - K'`_0)].
Proof.
pose h : F := (`|C| + 1)^-1.
have h1 : 0 < `|C| + 1 by rewrite ltr_spaddr.
have h0 : 0 < h by rewrite invr_gt0.
pose B : seq 'M[F]_1 := nseq 2 1%:M; pose D : seq 'M[F]_1 := nseq 2 0; pose D' : seq 'M[F]_1 := [:: 0; - 1%:M].
have u : h *: B`_1 \in unitmx by rewrite scalemx1 unitmxE det_scalar1 unitfE gt_eqF.
have [K E [sK S]] := @ck_rect F 1 1 h 2 B D D (erefl _) (erefl _) None None isT u.
have [K' E' [sK' S']] := @ck_rect F 1 1 h 2 B D' D (erefl _) (erefl _) None None isT u.
exists h, B, D, D', D, None, (mkseq (fun i => i%:R * h) 2), K, K'; split=> //.
- by rewrite h0 /h invf_le1 // ler_addr normr_ge0.
- by case=> [|[|]].
- case=> [|[|]] // _ /=; first by rewrite subrr; apply/within0/ler01.
  by move=> i j; rewrite !ord1 opprK add0r mxE eqxx normr1.
have K0 : K`_0 = 0.
  have := S 1%N isT; rewrite /rect_rule big_ord1 /= mul1mx oppr0 => /eqP.
  by rewrite scaler_eq0 gt_eqF //= => /eqP.
have K0' : h *: K'`_0 = 1%:M by have := S' 1%N isT; rewrite /rect_rule big_ord1 /= mul1mx opprK.
have {K0'} : K'`_0 = (`|C| + 1)%:M.
  by apply: (scalerI (lt0r_neq0 h0)); rewrite K0' scale_scalar_mx mulVf ?gt_eqF.
rewrite K0 => -> /(_ ord0 ord0); rewrite !mxE eqxx sub0r normrN mulr1 ger0_norm ?(ltW h1) // => le.
by have := le_lt_trans (le_trans (ler_norm C) (_ : `|C| <= `|C|)) (_ : `|C| < `|C| + 1); rewrite lexx ltr_addl ltr01 => /(_ isT isT); rewrite ltNge le.
Qed.
End Second.
Print Assumptions C81_second_rect.
Print Assumptions C81_second_trapz.
Print Assumptions C81_first_rect.
Print Assumptions C81_first_refuted.


(** *** Hypotheses met, two correlations of size two. *)
Lemma within_scalar (F : realFieldType) d (x e : F) : 0 <= e -> `|x| <= e -> within e (x%:M : 'M[F]_d).
Proof. by move=> e0 h i j; rewrite mxE; case: eqP => _; rewrite ?mulr1n ?mulr0n ?normr0. Qed.

Lemma within_const (F : realFieldType) d m (x : F) : within `|x| (const_mx x : 'M[F]_(d, m)).
Proof. by move=> i j; rewrite mxE. Qed.

Section Example.
Variable F : realFieldType.
Let c : corrs_data F 2 1 := Corrs (nseq 3 1%:M) (nseq 3 0) (nseq 3 (const_mx 1)) (Some (nseq 3 1%:M)).
Let c' : corrs_data F 2 1 := Corrs (nseq 3 1%:M) (nseq 3 0) (nseq 3 (const_mx 2)) (Some (nseq 3 0)).

Lemma nth3 (T : zmodType) (x : T) i : (i < 3)%N -> (nseq 3 x)`_i = x.
Proof. by move=> h; rewrite nth_nseq h. Qed.

Example C81_second_example : exists times ker ker',
  [/\ compute_kernel 1 3 c MSecondRect None = Ok (times, ker),
      compute_kernel 1 3 c' MSecondRect None = Ok (times, ker'),
      [/\ (bkbk c)`_0 \in unitmx, within 1 (invmx (bkbk c)`_0) & near 1 0 (bkbk c) (bkbk c')],
      [/\ near 3 1 (nseq 3 (1%:M : 'M[F]_2)) (nseq 3 0), near 3 1 (dotbkdx c) (dotbkdx c')
        & forall i, (i < 3)%N -> within 1 (nseq 3 (1%:M : 'M[F]_2))`_i]
    & (forall i, (i < 3)%N -> within 2 ker'`_i) /\ ker`_1 = const_mx 2 ].
Proof.
have u : (nseq 3 (1%:M : 'M[F]_2))`_0 \in unitmx by apply: unitmx1.
have [ker E [sk k0 S]] := @ck_second_rect F 2 1 1 3 (nseq 3 1%:M) (nseq 3 1%:M) (nseq 3 0) (nseq 3 (const_mx 1)) (erefl _) (erefl _) (erefl _) isT u.
have [ker' E' [sk' k0' S']] := @ck_second_rect F 2 1 1 3 (nseq 3 1%:M) (nseq 3 0) (nseq 3 0) (nseq 3 (const_mx 2)) (erefl _) (erefl _) (erefl _) isT u.
exists (mkseq (fun i => i%:R * 1) 3), ker, ker'; split=> //.
- split; first exact: u.
    by rewrite /= invmx1; apply: within_scalar; rewrite ?normr1 ?ler01 ?lexx.
  by case=> // li; rewrite subrr; apply: within0.
- split=> i li; rewrite /= !nth3 ?subr0 //; first by apply: within_scalar; rewrite ?normr1 ?ler01 ?lexx.
    have -> : const_mx 1 - const_mx 2 = const_mx (- 1) :> 'M[F]_(2, 1).
      by rewrite -raddfB /=; congr const_mx; rewrite opprD addNKr.
    by rewrite -[X in within X _](normr1 F) -normrN; apply: within_const.
  by apply: within_scalar; rewrite ?normr1 ?ler01 ?lexx.
split=> [i li|].
  have -> : ker'`_i = const_mx 2.
    case: i li => [|i] li; first by move: k0'; rewrite !nth3 // mul1mx.
    have := S' i.+1; rewrite size_nseq li !nth3 // mul1mx => -> //.
    rewrite /rect_rule big1 ?scaler0 ?add0r // => j _; rewrite nth3 ?mul0mx //.
    by have := ltn_ord j; lia.
  by rewrite -[X in within X _](ger0_norm (ler0n F 2)); apply: within_const.
have := S 1%N isT; rewrite /rect_rule big_ord1 /= !mul1mx scale1r => ->.
move: k0; rewrite /= mul1mx => ->; by rewrite -raddfD.
Qed.

(** Trapezoids, on the same correlations: the other matrix is [1 - 1/2], of inverse [2]. *)
Example C81_second_trapz_example : exists times ker ker',
  [/\ compute_kernel 1 3 c MSecondTrapz None = Ok (times, ker),
      compute_kernel 1 3 c' MSecondTrapz None = Ok (times, ker'),
      (bkbk c)`_0 - (2^-1 * 1) *: (nseq 3 1%:M)`_0 \in unitmx,
      within 2 (invmx ((bkbk c)`_0 - (2^-1 * 1) *: (nseq 3 1%:M)`_0))
    & forall i, (i < 3)%N -> within 2 ker'`_i].
Proof.
have n2 : (2 : F) != 0 by rewrite pnatr_eq0.
have e : (nseq 3 (1%:M : 'M[F]_2))`_0 - (2^-1 * 1) *: (nseq 3 1%:M)`_0 = 2^-1%:M.
  rewrite /= mulr1 scalemx1 -raddfB /=; congr (_%:M); apply: (mulfI n2).
  by rewrite mulrBr mulr1 divff // addrK.
have v : (2^-1%:M : 'M[F]_2) \in unitmx by rewrite -scalemx1 unitmxZ ?unitmx1 // unitfE invr_eq0.
have u : (nseq 3 (1%:M : 'M[F]_2))`_0 \in unitmx by apply: unitmx1.
have [|ker E [sk k0 S]] := @ck_second_trapz F 2 1 1 3 (nseq 3 1%:M) (nseq 3 1%:M) (nseq 3 0) (nseq 3 (const_mx 1)) (erefl _) (erefl _) (erefl _) isT u.
  by rewrite e.
have [|ker' E' [sk' k0' S']] := @ck_second_trapz F 2 1 1 3 (nseq 3 1%:M) (nseq 3 0) (nseq 3 0) (nseq 3 (const_mx 2)) (erefl _) (erefl _) (erefl _) isT u.
  by rewrite /= scaler0 subr0.
exists (mkseq (fun i => i%:R * 1) 3), ker, ker'; split=> //; first by rewrite /bkbk e.
  have -> : invmx ((bkbk c)`_0 - (2^-1 * 1) *: (nseq 3 1%:M)`_0) = 2%:M.
    by rewrite /bkbk e invmx_scalar invrK.
  by apply: within_scalar; rewrite ?ger0_norm ?ler0n.
move=> i li; have -> : ker'`_i = const_mx 2.
  case: i li => [|i] li; first by move: k0'; rewrite !nth3 // mul1mx.
  have := S' i.+1; rewrite size_nseq li !nth3 // mul1mx => -> //.
  rewrite /trapz_rule big1 ?scaler0 ?add0r // => j _; have := ltn_ord j => lj.
  by rewrite !nth3 ?mul0mx ?addr0 ?scaler0 //; lia.
by rewrite -[X in within X _](ger0_norm (ler0n F 2)); apply: within_const.
Qed.

Example C81_first_example : exists times ker ker',
  let B := nseq 3 (1%:M : 'M[F]_2) in
  [/\ compute_kernel 1 3 (Corrs B (nseq 3 (0 : 'M[F]_(2, 1))) (nseq 3 0) None) MRect None = Ok (times, ker),
      compute_kernel 1 3 (Corrs B (nseq 3 (const_mx 1 : 'M[F]_(2, 1))) (nseq 3 0) None) MRect None = Ok (times, ker'),
      within 1 (invmx B`_1) & forall i, (i.+1 < 3)%N -> within (0 * 1) (B`_i.+1 - B`_i)]
  /\ forall i, (0 < i < 3)%N -> within 1 ((nseq 3 (0 : 'M[F]_(2, 1)))`_i - (nseq 3 (const_mx 1))`_i).
Proof.
have u : 1 *: (nseq 3 (1%:M : 'M[F]_2))`_1 \in unitmx by rewrite scale1r; apply: unitmx1.
have [K E _] := @ck_rect F 2 1 1 3 (nseq 3 1%:M) (nseq 3 0) (nseq 3 0) (erefl _) (erefl _) None None isT u.
have [K' E' _] := @ck_rect F 2 1 1 3 (nseq 3 1%:M) (nseq 3 (const_mx 1)) (nseq 3 0) (erefl _) (erefl _) None None isT u.
exists (mkseq (fun i => i%:R * 1) 3), K, K'; split; first split=> //.
- by rewrite /= invmx1; apply: within_scalar; rewrite ?normr1 ?ler01 ?lexx.
- by move=> i li; rewrite !nth3 ?subrr ?mul0r; [apply: within0 | lia..].
- move=> i /andP[_ li]; rewrite !nth3 // sub0r; apply: withinN.
  by rewrite -[X in within X _](normr1 F); apply: within_const.
Qed.
End Example.
