(** * Property C61: the samples returned by [compute_kernel]. *)
From mathcomp Require Import all_ssreflect all_algebra.
From Verif Require Import Base FKernel Model Estimator Quadrature FKernelSpec KernelSpec KernelValues FKernelProofs FKernelProofs2.
Set Implicit Arguments.
Unset Strict Implicit.
Unset Printing Implicit Defensive.
Import GRing.Theory Num.Theory.
Local Open Scope ring_scope.

(** Which correlations enter which discrete equation, the value at time zero, the smoothing
    of the trapezoidal kernel and the Richardson combination.  The midpoint equation is the
    coded one (C04). *)
Theorem C61_kernel_values (R : realFieldType) (k o : nat) (dt : R) N (c : corrs_data R k o) mt k0 times ker :
  compute_kernel dt N c mt k0 = Ok (times, ker) ->
  match mt with
  | MRect => solves_rect dt (bkbk c) (bkdx c) ker /\ size ker = size (bkbk c)
  | MMidpoint => solves_coded_midpoint dt (bkbk c) (bkdx c) ker
  | MRichardson =>
      exists B3 D3 K K3,
        [/\ every_third (bkbk c) B3 /\ every_third (bkdx c) D3,
            solves_coded_midpoint dt (bkbk c) (bkdx c) K,
            solves_coded_midpoint (3%:R * dt) B3 D3 K3
          & forall i, (i < size ker)%N -> 8%:R *: ker`_i = 9%:R *: K`_(3 * i) - K3`_i]
  | MTrapz =>
      exists2 K, solves_trapz dt (bkbk c) (bkdx c) K /\ size K = size (bkbk c)
        & [/\ initial_value (bkbk c) (dotbkdx c) k0 K`_0, ker`_0 = K`_0,
              size ker = maxn 1 (size K).-1 & smoothed K ker]
  | MSecondRect =>
      exists2 dd, dotbkbk c = Some dd
        & [/\ initial_value (bkbk c) (dotbkdx c) k0 ker`_0, size ker = size dd
            & solves2_rect dt (bkbk c)`_0 dd (dotbkdx c) ker]
  | MSecondTrapz =>
      exists2 dd, dotbkbk c = Some dd
        & [/\ initial_value (bkbk c) (dotbkdx c) k0 ker`_0, size ker = size dd
            & solves2_trapz dt (bkbk c)`_0 dd (dotbkdx c) ker]
  | MOther => False
  end.
Proof. exact: kernel_values. Qed.
Print Assumptions C61_kernel_values.

(** Richardson: errors quadratic in the step cancel, at every sample that both inversions compute. *)
Theorem C61_richardson_exact (R : realFieldType) (k o : nat) (dt : R) N (c : corrs_data R k o)
    k0 times ker B3 D3 K K3 (L e : nat -> 'M[R]_(k, o)) :
  compute_kernel dt N c MRichardson k0 = Ok (times, ker) ->
  every_third (bkbk c) B3 -> every_third (bkdx c) D3 ->
  solves_coded_midpoint dt (bkbk c) (bkdx c) K -> solves_coded_midpoint (3%:R * dt) B3 D3 K3 ->
  (forall i, K`_(3 * i) = L i + dt ^+ 2 *: e i) -> (forall i, K3`_i = L i + (3%:R * dt) ^+ 2 *: e i) ->
  forall i, (i < maxn 1 ((size B3).-1 %/ 2))%N -> ker`_i = L i.
Proof. exact: richardson_exact. Qed.
Print Assumptions C61_richardson_exact.

Definition flat_corrs (R : realFieldType) : corrs_data R 2 1 :=
  Corrs (nseq 10 1%:M) (nseq 10 (const_mx (-1))) (nseq 10 (const_mx 3%:R)) (Some (nseq 10 0)).

Lemma flat_midpoint (R : realFieldType) n (a : R) : (1 < n)%N -> a != 0 ->
  exists2 K, kernel_first_kind_midpoint a (nseq n (1%:M : 'M[R]_2)) (nseq n (const_mx (-1) : 'M[R]_(2, 1))) = Ok K
    & size K = midpoint_len n.
Proof.
move=> n1 a0; rewrite /kernel_first_kind_midpoint size_nseq.
have u : (2 * a) *: (nseq n (1%:M : 'M[R]_2))`_1 \in unitmx.
  by rewrite nth_nseq n1 scalemx1 unitmxE det_scalar unitrX // unitfE mulf_neq0 ?pnatr_eq0.
have [|||K E [sK _ _]] := mid_run (buf := nseq (midpoint_len n) (0 : 'M[R]_(2, 1)))
   (D := nseq n (const_mx (-1))) _ _ _ u; rewrite ?size_nseq //.
by exists K; rewrite // sK size_nseq.
Qed.

Example C61_example_richardson (R : realFieldType) :
  exists times ker, compute_kernel 1 10 (flat_corrs R) MRichardson None = Ok (times, ker) /\ size ker = 2%N.
Proof.
have [K E sK] := flat_midpoint (isT : (1 < 10)%N) (oner_neq0 R).
have n3 : 3%:R * 1 != 0 :> R by rewrite mulr1 pnatr_eq0.
have [K3 E3 sK3] := flat_midpoint (isT : (1 < 4)%N) n3.
rewrite /compute_kernel; set f := @kernel_first_kind_midpoint R 2 1 in E E3 *; clearbody f.
rewrite /= E /= [in f _ _ _]/stride3 /= E3 /= /richardson.
case: K sK {E} => [|? [|? [|? [|? [|? []]]]]] //= _; case: K3 sK3 {E3} => [|? [|? []]] //= _.
by do 2! eexists; split.
Qed.
Example C61_example_initial (R : realFieldType) :
  exists times ker, compute_kernel 1 10 (flat_corrs R) MSecondRect None = Ok (times, ker) /\
    ker`_0 = const_mx 3%:R.
Proof.
have [K E [sK K0 _]] := rect2_run 1 (invmx 1%:M *m const_mx 3%:R) (buf := nseq 10 0)
  (Bd := nseq 10 (0 : 'M[R]_2)) (Dd := nseq 10 (const_mx 3%:R : 'M[R]_(2, 1))) (erefl _) (erefl _) isT (unitmx1 R 2).
exists (mkseq (fun i => i%:R * 1) 10), K; split; last by rewrite K0 invmx1 mul1mx.
have {}E : @kernel_second_kind_rect R 2 1 1 (invmx 1%:M *m const_mx 3%:R) 1%:M (nseq 10 0) (nseq 10 (const_mx 3%:R)) = Ok K by [].
rewrite /compute_kernel; set f := @kernel_second_kind_rect R 2 1 in E *; clearbody f.
by rewrite /= /initial_k0 /= /solve_linear /finv unitmx1 /= E /= sK.
Qed.
