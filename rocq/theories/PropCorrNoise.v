(** * Property C81, in continuous time: convergence from perturbed correlations. *)
From Coq Require Import Reals Lra.
From Coquelicot Require Import Coquelicot.
From mathcomp Require Import all_ssreflect all_algebra zify.
From Verif Require Import Base RealsMC FKernel Model Estimator Convergence PropStability CorrNoiseProofs PropConvergence.
Set Implicit Arguments.
Unset Strict Implicit.
Unset Printing Implicit Defensive.
Import Order.TTheory GRing.Theory Num.Theory.
Local Open Scope ring_scope.
Bind Scope ring_scope with Rdefinitions.R.
Local Notation R := Rdefinitions.R.

(** Second kind, rectangles: samples known within [e] give the kernel of the continuous equation
    within [C (dt + e)], and the inversion runs. *)
Theorem C81_noisy_rect d m (T M : R) (B Bd : R -> 'M[R]_d) (Dd K : R -> 'M[R]_(d, m)) :
  0 <= T -> 0 <= M -> B 0 \in unitmx -> lipschitz M T Bd -> lipschitz M T K -> volterra2 T (B 0) Bd Dd K ->
  exists C, exists2 e1, 0 < e1 & 0 <= C /\ forall dt N e bb bd db dd,
    0 < dt -> (1 < N)%N -> N.-1%:R * dt <= T -> 0 <= e <= e1 ->
    size bb = N -> size db = N -> size dd = N ->
    near 1 e bb (samples dt N B) -> near N e dd (samples dt N Bd) -> near N e db (samples dt N Dd) ->
    exists2 ker, compute_kernel dt N (Corrs bb bd db (Some dd)) MSecondRect None = Ok (mkseq (fun i => i%:R * dt) N, ker) &
      size ker = N /\ forall i, (i < N)%N -> within (C * (dt + e)) (ker`_i - K (i%:R * dt)).
Proof. move=> T0 M0 u hB hK eq; exact: (@noisy_rect d m T M T0 M0 B Bd Dd K u hB hK eq). Qed.
Print Assumptions C81_noisy_rect.

(** Trapezoids. *)
Theorem C81_noisy_trapz d m (T M : R) (B Bd Bdd : R -> 'M[R]_d) (Dd K Kd : R -> 'M[R]_(d, m)) :
  0 <= T -> 0 <= M -> B 0 \in unitmx -> lipschitz M T Bd -> lipschitz M T K ->
  derivative M T Bd Bdd -> derivative M T K Kd -> volterra2 T (B 0) Bd Dd K ->
  exists C dt1, exists2 e1, 0 < dt1 /\ 0 < e1 & 0 <= C /\ forall dt N e bb bd db dd,
    0 < dt <= dt1 -> (1 < N)%N -> N.-1%:R * dt <= T -> 0 <= e <= e1 ->
    size bb = N -> size db = N -> size dd = N ->
    near 1 e bb (samples dt N B) -> near N e dd (samples dt N Bd) -> near N e db (samples dt N Dd) ->
    exists2 ker, compute_kernel dt N (Corrs bb bd db (Some dd)) MSecondTrapz None = Ok (mkseq (fun i => i%:R * dt) N, ker) &
      size ker = N /\ forall i, (i < N)%N -> within (C * (dt ^+ 2 + e)) (ker`_i - K (i%:R * dt)).
Proof. move=> T0 M0 u hB hK dB dK eq; exact: (@noisy_trapz d m T M T0 M0 B Bd Bdd Dd K Kd u hB hK dB dK eq). Qed.
Print Assumptions C81_noisy_trapz.

(** First kind, rectangles: the error of the force correlation comes divided by the step. *)
Theorem C81_noisy_first d m (T M : R) (B Bd : R -> 'M[R]_d) (D K : R -> 'M[R]_(d, m)) :
  0 <= T -> 0 <= M -> B 0 \in unitmx -> lipschitz M T B -> lipschitz M T K ->
  derivative M T B Bd -> volterra1 T B D K ->
  exists C, exists2 dt1, 0 < dt1 & 0 <= C /\ forall dt N e bd db dbb k0,
    0 < dt <= dt1 -> (1 < N)%N -> N.-1%:R * dt <= T -> 0 <= e -> size bd = N ->
    near N e bd (samples dt N D) ->
    exists2 ker, compute_kernel dt N (Corrs (samples dt N B) bd db dbb) MRect k0 = Ok (mkseq (fun i => i%:R * dt) N, ker) &
      size ker = N /\ forall i, (i.+1 < N)%N -> within (C * (dt + e / dt)) (ker`_i - K (i%:R * dt)).
Proof. move=> T0 M0 u hB hK dB eq; exact: (@noisy_first d m T M T0 M0 B Bd D K u hB hK dB eq). Qed.
Print Assumptions C81_noisy_first.

(** *** Hypotheses met by the data of C79 ([B(t) = 1 + t], kernel [exp (- t)]), the force correlation
    carrying a constant error. *)
Lemma near_shift a b n N dt (e x : R) (G : R -> 'M[R]_(a, b)) : `|x| <= e -> (n <= N)%N ->
  near n e (samples dt N (fun t => G t + const_mx x)) (samples dt N G).
Proof.
move=> le ln i li; have lN := leq_trans li ln.
by rewrite /samples !nth_mkseq // addrAC subrr add0r => p q; rewrite mxE.
Qed.

Lemma near_refl a b n N dt (e : R) (G : R -> 'M[R]_(a, b)) : 0 <= e -> near n e (samples dt N G) (samples dt N G).
Proof. by move=> e0 i li; rewrite subrr => p q; rewrite mxE normr0. Qed.

Example C81_noisy_example : exists C, exists2 e1 : R, 0 < e1 & 0 <= C /\ forall dt N e, 0 < dt -> (1 < N)%N -> N.-1%:R * dt <= 1 -> 0 <= e <= e1 ->
    exists2 ker, compute_kernel dt N (Corrs (samples dt N wB) (samples dt N wD) (samples dt N (fun t => wDd t + const_mx e)) (Some (samples dt N wBd)))
        MSecondRect None = Ok (mkseq (fun i => i%:R * dt) N, ker) &
      size ker = N /\ forall i, (i < N)%N -> within (C * (dt + e)) (ker`_i - (exp (- (i%:R * dt)))%:M).
Proof.
have [u _ [hB _] [hK _] [_ eq]] := C79_example.
have [||C [e1 p [C0 H]]] := C81_noisy_rect (M := 2) (T := 1) _ _ u hB hK eq; rewrite ?ler0n ?ler01 //.
exists C, e1 => //; split=> // dt N e dt0 N1 le /andP[e0 ee].
apply: (H dt N e) => //; rewrite ?size_mkseq ?e0 //.
- exact: near_refl.
- exact: near_refl.
- by apply: near_shift; rewrite ?ger0_norm.
Qed.

Example C81_noisy_trapz_example : exists C dt1, exists2 e1 : R, 0 < dt1 /\ 0 < e1 & 0 <= C /\ forall dt N e, 0 < dt <= dt1 -> (1 < N)%N -> N.-1%:R * dt <= 1 -> 0 <= e <= e1 ->
    exists2 ker, compute_kernel dt N (Corrs (samples dt N wB) (samples dt N wD) (samples dt N (fun t => wDd t + const_mx e)) (Some (samples dt N wBd)))
        MSecondTrapz None = Ok (mkseq (fun i => i%:R * dt) N, ker) &
      size ker = N /\ forall i, (i < N)%N -> within (C * (dt ^+ 2 + e)) (ker`_i - (exp (- (i%:R * dt)))%:M).
Proof.
have [u _ [hB dB] [hK dK] [_ eq]] := C79_example.
have [||C [dt1 [e1 p [C0 H]]]] := C81_noisy_trapz (M := 2) (T := 1) _ _ u hB hK dB dK eq; rewrite ?ler0n ?ler01 //.
exists C, dt1, e1 => //; split=> // dt N e dt0 N1 le /andP[e0 ee].
apply: (H dt N e) => //; rewrite ?size_mkseq ?e0 //.
- exact: near_refl.
- exact: near_refl.
- by apply: near_shift; rewrite ?ger0_norm.
Qed.

Example C81_noisy_first_example : exists C, exists2 dt1 : R, 0 < dt1 & 0 <= C /\ forall dt N e, 0 < dt <= dt1 -> (1 < N)%N -> N.-1%:R * dt <= 1 -> 0 <= e ->
    exists2 ker, compute_kernel dt N (Corrs (samples dt N wB) (samples dt N (fun t => wD t + const_mx e)) [::] None)
        MRect None = Ok (mkseq (fun i => i%:R * dt) N, ker) &
      size ker = N /\ forall i, (i.+1 < N)%N -> within (C * (dt + e / dt)) (ker`_i - (exp (- (i%:R * dt)))%:M).
Proof.
have [u [hB dB] _ [hK _] [eq _]] := C79_example.
have [||C [dt1 p [C0 H]]] := C81_noisy_first (M := 2) (T := 1) _ _ u hB hK dB eq; rewrite ?ler0n ?ler01 //.
exists C, dt1 => //; split=> // dt N e dt0 N1 le e0.
apply: (H dt N e) => //; rewrite ?size_mkseq //.
by apply: near_shift; rewrite ?ger0_norm.
Qed.
