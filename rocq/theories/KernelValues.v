(** * Values returned by [compute_kernel], every method. *)
From mathcomp Require Import all_ssreflect all_algebra zify.
From Verif Require Import Base Tactics FKernel Model Estimator Quadrature FKernelSpec KernelSpec.
From Verif Require Import VolterraMain GfpeProofs EstimatorProofs EstimatorProofs2.
Set Implicit Arguments.
Unset Strict Implicit.
Unset Printing Implicit Defensive.
Import GRing.Theory Num.Theory.
Local Open Scope ring_scope.

Section Values.
Variables (R : realFieldType) (k o : nat).
Implicit Types (dt : R) (c : corrs_data R k o).

Lemma initial_k0_ok c (k0 : option 'M[R]_(k, o)) k1 : initial_k0 c k0 = Ok k1 -> initial_value (bkbk c) (dotbkdx c) k0 k1.
Proof.
rewrite /initial_k0 /initial_value; case: k0 => [k0 [->]//|].
case Eb: (rd (bkbk c) 0) => [b0|] //=; case Ed: (rd (dotbkdx c) 0) => [d0|] //=.
have [_ ->] := rd_ok 0 Eb; have [_ ->] := rd_ok 0 Ed.
rewrite /solve_linear /finv; case: ifP => // u [<-].
by rewrite mulmxA mulmxV // mul1mx.
Qed.

Lemma every_third_stride3 (V : zmodType) (a : seq V) : every_third a (stride3 a).
Proof.
split=> [|i]; first by rewrite size_mkseq.
case li: (i < (size a + 2) %/ 3)%N; first by rewrite nth_mkseq.
rewrite [LHS]nth_default ?[RHS]nth_default // ?size_mkseq leqNgt ?li //; apply/negP; slia.
Qed.

Lemma kernel_values dt N c mt (k0 : option 'M[R]_(k, o)) times ker :
  compute_kernel dt N c mt k0 = Ok (times, ker) ->
  match mt with
  | MRect => solves_rect dt (bkbk c) (bkdx c) ker /\ size ker = size (bkbk c)
  | MMidpoint => solves_coded_midpoint dt (bkbk c) (bkdx c) ker
  | MRichardson =>
      exists B3 D3 K K3,
        [/\ every_third (bkbk c) B3 /\ every_third (bkdx c) D3,
            solves_coded_midpoint dt (bkbk c) (bkdx c) K,
            solves_coded_midpoint (3%:R * dt) B3 D3 K3
          & forall i, (i < size ker)%N -> 8%:R *: ker`_i = 9%:R *: K`_(3 * i) - K3`_i]
  | MTrapz =>
      exists2 K, solves_trapz dt (bkbk c) (bkdx c) K /\ size K = size (bkbk c)
        & [/\ initial_value (bkbk c) (dotbkdx c) k0 K`_0, ker`_0 = K`_0,
              size ker = maxn 1 (size K).-1 & smoothed K ker]
  | MSecondRect =>
      exists2 dd, dotbkbk c = Some dd
        & [/\ initial_value (bkbk c) (dotbkdx c) k0 ker`_0, size ker = size dd
            & solves2_rect dt (bkbk c)`_0 dd (dotbkdx c) ker]
  | MSecondTrapz =>
      exists2 dd, dotbkbk c = Some dd
        & [/\ initial_value (bkbk c) (dotbkdx c) k0 ker`_0, size ker = size dd
            & solves2_trapz dt (bkbk c)`_0 dd (dotbkdx c) ker]
  | MOther => False
  end.
Proof.
rewrite /compute_kernel; case: (0 < N)%N => //= H.
unbind H k1 E0; have I0 : needs_k0 mt -> initial_value (bkbk c) (dotbkdx c) k0 k1.
  by move=> n; rewrite n in E0; exact: initial_k0_ok.
unbind H tk Et; move: H; case: eqP => // es [etk]; rewrite etk in Et es => {etk tk}.
case: mt I0 E0 Et => /= I0 E0 H.
- unbind H K E; case: H => _ <-.
  by have [_ [sK _ sol]] := (rect_main _ _ _ _).1 E.
- unbind H K E; case: H => _ <-.
  by have [_ [_ _ sol]] := (mid_main _ _ _ _).1 E.
- unbind H K E; unbind H K3 E3; unbind H ker' Er; case: H => _ ek; rewrite ek {ker' ek} in Er.
  exists (stride3 (bkbk c)), (stride3 (bkdx c)), K, K3.
  have [_ [_ _ sol]] := (mid_main _ _ _ _).1 E; have [_ [_ _ sol3]] := (mid_main _ _ _ _).1 E3.
  split=> //; first by split; exact: every_third_stride3.
  move: Er; rewrite /richardson; case: eqP => // st Er; have {Er} -> := esym (res_inj Er).
  rewrite size_mkseq st => i li; rewrite nth_mkseq ?st // scalerA divff ?scale1r ?pnatr_eq0 //.
  by rewrite nth_take // (every_third_stride3 K).2.
- unbind H K E; case: H => _ <-.
  have [[_ s0 _] [sK K0 sol]] := (trapz_main _ _ _ _ _).1 E.
  exists K; first by split.
  split=> //=; first by rewrite K0; exact: I0.
    by rewrite size_mkseq; slia.
  move=> i; rewrite /= size_mkseq ltnS => li; rewrite nth_mkseq // scalerA.
  have -> : 4%:R * 2^-1 = 2%:R :> R by rewrite (_ : 4%:R = 2%:R * 2%:R) ?mulfK ?pnatr_eq0 // -natrM.
  rewrite scalerDr scalerA divff ?pnatr_eq0 // scale1r.
  by rewrite addrCA addrA.
- unbind H b0 Eb; case Ed: (dotbkbk c) H => [dd|] // H; exists dd => //.
  unbind H K E; case: H => _ <-; have [_ eb] := rd_ok 0 Eb.
  by have [_ [sK K0 sol]] := (rect2_main _ _ _ _ _ _).1 E; rewrite K0 -eb; split=> //; exact: I0.
- unbind H b0 Eb; case Ed: (dotbkbk c) H => [dd|] // H; exists dd => //.
  unbind H K E; case: H => _ <-; have [_ eb] := rd_ok 0 Eb.
  by have [_ [sK K0 sol]] := (trapz2_main _ _ _ _ _ _).1 E; rewrite K0 -eb; split=> //; exact: I0.
- by [].
Qed.

(** The coded midpoint equations have one solution. *)
Lemma coded_midpoint_unique dt (B : seq 'M[R]_k) (D K K' : seq 'M[R]_(k, o)) :
  kernel_first_kind_midpoint dt B D = Ok K -> solves_coded_midpoint dt B D K' ->
  forall i, (i < maxn 1 ((size B).-1 %/ 2))%N -> K'`_i = K`_i.
Proof.
move=> E sol; have [[sD sB u] _] := (mid_main _ _ _ _).1 E.
pose n := maxn 1 ((size B).-1 %/ 2).
pose K2 := mkseq (fun i => if (i < n)%N then K'`_i else 0) (midpoint_len (size B)).
have nn : (n <= midpoint_len (size B))%N by rewrite /n /midpoint_len; slia.
have h i : (i < n)%N -> K2`_i = K'`_i by move=> li; rewrite nth_mkseq ?li //; lia.
have E2 : kernel_first_kind_midpoint dt B D = Ok K2.
  apply/(mid_main dt B D K2).2; split=> //; split; first by rewrite size_mkseq.
    move=> j; rewrite -/n => lj; case lj2: (j < midpoint_len (size B))%N.
      by rewrite nth_mkseq // ltnNge lj.
    by rewrite nth_default // size_mkseq leqNgt lj2.
  move=> i; rewrite -/n => li; rewrite h //; rewrite -(sol _ li); congr (_ *: (_ + _)).
  by apply: eq_bigr => j _; rewrite h //; have := ltn_ord j; lia.
by move=> i li; rewrite -(h i li); have -> := res_inj (etrans (esym E) E2).
Qed.

(** Leading errors quadratic in the step cancel. *)
Lemma richardson_exact dt N c (k0 : option 'M[R]_(k, o)) times ker B3 D3 K K3 (L e : nat -> 'M[R]_(k, o)) :
  compute_kernel dt N c MRichardson k0 = Ok (times, ker) ->
  every_third (bkbk c) B3 -> every_third (bkdx c) D3 ->
  solves_coded_midpoint dt (bkbk c) (bkdx c) K -> solves_coded_midpoint (3%:R * dt) B3 D3 K3 ->
  (forall i, K`_(3 * i) = L i + dt ^+ 2 *: e i) -> (forall i, K3`_i = L i + (3%:R * dt) ^+ 2 *: e i) ->
  forall i, (i < maxn 1 ((size B3).-1 %/ 2))%N -> ker`_i = L i.
Proof.
move=> E [sB3 eB3] [sD3 eD3] sol sol3 HK HK3 i li; move: E.
have e3 : B3 = stride3 (bkbk c).
  by apply: (@eq_from_nth _ 0) => [|j lj]; rewrite ?size_mkseq // eB3 (every_third_stride3 _).2.
have f3 : D3 = stride3 (bkdx c).
  by apply: (@eq_from_nth _ 0) => [|j lj]; rewrite ?size_mkseq // eD3 (every_third_stride3 _).2.
rewrite /compute_kernel; case: (0 < N)%N => //= H; unbind H tk H'; move: H; case: eqP => // _ [etk].
rewrite {}etk in H'; unbind H' K1 E1; unbind H' K13 E3; unbind H' kr Er; case: H' => _ ek; rewrite ek {kr ek} in Er.
rewrite -e3 -f3 in E3.
have h3 := coded_midpoint_unique E3 sol3 li.
have l3 : (3 * i < maxn 1 ((size (bkbk c)).-1 %/ 2))%N by move: li; rewrite sB3; slia.
have h1 := coded_midpoint_unique E1 sol l3.
have [_ [s13 _ _]] := (mid_main _ _ _ _).1 E3.
move: Er; rewrite /richardson; case: eqP => // st Er; have {Er} -> := esym (res_inj Er).
rewrite nth_mkseq ?st; last by rewrite s13 /midpoint_len; move: li; slia.
rewrite nth_take; last by rewrite s13 /midpoint_len; move: li; slia.
rewrite (every_third_stride3 K1).2 -h1 -h3 HK HK3.
rewrite (_ : _ - _ = 8%:R *: L i) ?scalerA ?mulVf ?scale1r ?pnatr_eq0 //.
rewrite exprMn -natrX -[((3 ^ 2)%N%:R * _) *: _]scalerA [9%:R *: _]scalerDr opprD addrACA subrr addr0.
by rewrite -[X in _ - X]scale1r -scalerBl -(natrB _ (isT : (1 <= 9)%N)).
Qed.
End Values.
