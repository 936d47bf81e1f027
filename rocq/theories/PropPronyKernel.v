(** * C76: Prony series of a whole kernel
    (fit_prony.py prony_fit_kernel, prony_series_kernel_eval; fit_memory.py with the type prony). *)
From Coq Require Import Reals String.
From mathcomp Require Import all_ssreflect all_algebra.
From mathcomp Require Import complex zify.
From Verif Require Import Base Prony PronyProofs PronyProofs2 PronyProofs3 PronyWitness.
From Verif Require Import PronyEval PronyEvalSpec PronyEvalProofs PronyEvalProofs2 PronyEvalProofs3 PronyEvalWitness.
From Verif Require Import FitMemory PronyKernel PronyKernelProofs PronyKernelProofs2 RealsMC RealsExp.
Set Implicit Arguments.
Unset Strict Implicit.
Unset Printing Implicit Defensive.
Import Order.TTheory GRing.Theory Num.Theory.
Local Open Scope ring_scope.
Local Open Scope complex_scope.

Section C76.
Variable R : rcfType.
Local Notation C := R[i].
Local Notation Im := (@complex.Im R).
Variables (ex lg : C -> C) (tol eps : R).
Variable svd : forall n, 'M[R]_n.+1 -> 'M[R]_n.+1 * seq R * 'M[R]_n.+1.
Variable eig : forall n, 'M[R]_n -> bool * seq (C * seq C).
Variable expm : forall m, 'M[R]_m -> 'M[R]_m.
Implicit Types (K : kernel R) (times : seq R).

(** [table m n F]: m rows of n series. *)

(** A kernel is fitted when each of its components is, with the step between the first two times. *)
Theorem C76_components times K thres nk L : (1 < size times)%N ->
  fit_kernel lg tol eps svd eig times K thres nk = Ok L <->
  exists2 F, L = [seq [seq Some (F d k) | k <- iota 0 (k_basis K)] | d <- iota 0 (k_x K)]
    & forall d k, (d < k_x K)%N -> (k < k_basis K)%N ->
        fit_serie lg tol eps svd eig (k_val K k d) (times`_1 - times`_0) thres nk true = Ok (F d k).
Proof. exact: fit_components. Qed.

(** Its evaluation is the evaluation of the series, component by component, and fails when one does. *)
Theorem C76_eval times m n (F : nat -> nat -> series R) K : size times != 1%N -> (0 < m)%N ->
  (kernel_eval expm times [seq [seq Some (F d k) | k <- iota 0 n] | d <- iota 0 m] = Ok K ->
    [/\ k_x K = m, k_basis K = n & forall d k, (d < m)%N -> (k < n)%N ->
      series_eval expm times (F d k).1 (F d k).2 = Ok (k_val K k d)]) /\
  ((forall d k, (d < m)%N -> (k < n)%N -> series_eval expm times (F d k).1 (F d k).2 = Ok (k_val K k d)) ->
    exists2 K', kernel_eval expm times [seq [seq Some (F d k) | k <- iota 0 n] | d <- iota 0 m] = Ok K'
      & [/\ k_x K' = m, k_basis K' = n & forall d k, (d < m)%N -> (k < n)%N -> k_val K' k d = k_val K k d]).
Proof.
move=> st m0; split=> [/eval_inv[_ _ e1 e2 e3]|H]; first by split.
exact: (@eval_ok _ expm times m n F (fun d k => k_val K k d)).
Qed.

(** The series given back by C75: the hypotheses of C75_fit_partial. *)
Definition exact_series (thres : option R) (nk : option nat) (data : seq R) : Prop :=
  let y := [seq x / data`_0 | x <- data] in
  exists U s Vh t N dlu sg H,
  [/\ (2 < size data)%N /\ data`_0 != 0,
      svd (hankel y (half_len y)) = (U, s, Vh) /\ hsvd (hankel y (half_len y)) U s Vh,
      [/\ keep eps (half_len y) s thres nk = Ok (t, N), 0 < t <= 1 & forall k, (N <= k)%N -> s`_k = 0],
      [/\ ldl_hankel eps (y := y) U s Vh thres nk = Ok (dlu, sg, H), size dlu = \rank (hankel y (half_len y))
        & forall j, (j < size dlu)%N -> dlu`_j 0 ord_max = 0]
    & forall J : 'M[R]_(size dlu), get_jacobi eps (y := y) U s Vh thres nk = Ok (existT _ _ J) ->
     let e := (eig J).2 in
     [/\ eigen_of J (eig J).1 e,
         forall p, p \in e -> [/\ p.1 != 0, Im p.1 = 0 \/ tol <= `|Im p.1| & modulus p.1 <= 1]
       & forall p, p \in e -> negreal p.1 -> exists2 p', p' \in e & Im p'.1 != 0]].

(** On times starting at zero the evaluation of the fit gives the kernel back, but for the last
    sample when their number is even. *)
Theorem C76_round_trip_partial K n dt thres nk : exp_log ex lg -> is_expm ex expm -> 0 < tol -> dt != 0 ->
  (1 < n)%N -> (0 < k_x K)%N -> (0 < k_basis K)%N ->
  (forall d k, (d < k_x K)%N -> (k < k_basis K)%N -> size (k_val K k d) = n /\ exact_series thres nk (k_val K k d)) ->
  let times := [seq i%:R * dt | i <- iota 0 n] in
  let kept := (2 * (n.-1)./2).+1 in
  exists L K', [/\ fit_kernel lg tol eps svd eig times K thres nk = Ok L,
    kernel_eval expm (take kept times) L = Ok K', k_x K' = k_x K, k_basis K' = k_basis K
    & forall d k, (d < k_x K)%N -> (k < k_basis K)%N -> k_val K' k d = take kept (k_val K k d)].
Proof.
move=> EL EM t0 dt0 n1 dx db H times kept.
have n2 : (2 < n)%N by have [<- [U [s [Vh [t [N [dlu [sg [M [[]]]]]]]]]]] := H 0%N 0%N dx db.
have st : size times = n by rewrite size_map size_iota.
have s1 : (1 < size times)%N by rewrite st.
have kn : (kept <= n)%N by rewrite /kept; clear -n2; lia.
have k3 : (2 < kept)%N by rewrite /kept; clear -n2; lia.
have sk : size (take kept times) != 1%N by rewrite (size_takel _) ?st //; case: (kept) k3 => [|[|]].
apply: (@round_trip _ lg tol eps svd eig expm (take kept times) times K thres nk (fun d k => take kept (k_val K k d)) s1 sk dx) => d k ld lk.
have [sv [U [s [Vh [t [N [dlu [sg [M [[d2 d0] [E1 E2] [E3 E4 E5] [E6 E7 E8] E9]]]]]]]]]] := H d k ld lk.
have Edt : times`_1 - times`_0 = dt.
  by rewrite /times !(nth_map 0%N) ?size_iota ?(ltnW n1) // !nth_iota ?(ltnW n1) // mul1r mul0r subr0.
have [|A [EA ev]] := @fit_reproduces _ ex lg tol expm eps svd eig (k_val K k d) dt thres nk true U s Vh t N dlu sg M EL EM t0 dt0 d2 d0 E1 E2 E3 E4 E5 E6 E7 E8.
  by move=> J EJ; have [a b c] := E9 J EJ; split=> // p /b[b1 b2 b3].
exists ((k_val K k d)`_0, A); rewrite Edt; split=> //.
have hl : half_len [seq x / (k_val K k d)`_0 | x <- k_val K k d] = (n.-1)./2.
  by rewrite /half_len size_map sv subn1 divn2.
rewrite hl in ev; rewrite -ev; congr (series_eval _ _ _ _).
rewrite /times -map_take; congr map; rewrite -/kept take_iota; congr iota; exact/minn_idPl.
Qed.

(** The fit sees the times only through their step: it is the same for kernels starting later. *)
Theorem C76_shift c times K thres nk :
  fit_kernel lg tol eps svd eig [seq c + t | t <- times] K thres nk = fit_kernel lg tol eps svd eig times K thres nk.
Proof. exact: fit_shift. Qed.

(** A component that starts at zero makes the whole fit fail. *)
Theorem C76_zero_component times K thres nk d k : (d < k_x K)%N -> (k < k_basis K)%N -> (k_val K k d)`_0 = 0 ->
  exists e, fit_kernel lg tol eps svd eig times K thres nk = Err e.
Proof.
move=> ld lk z; case: (ltnP 1%N (size times)) => st; last by exists OutOfBounds; exact: fit_kernel_short.
case E: (size (k_val K k d) == 0%N).
  by apply: (fit_fails (e := OutOfBounds) (d := d) (k := k)) => //; rewrite /fit_serie E.
by apply: (fit_fails (e := ZeroDivision) (d := d) (k := k)) => //; rewrite /fit_serie E z eqxx.
Qed.

Theorem C76_fit_total_refuted : exists K times, forall thres nk,
  exists e, fit_kernel lg tol eps svd eig times K thres nk = Err e.
Proof.
exists (Kern 1 1 (fun _ _ => [:: 0; 0; 0])), [:: 0; 1; 2%:R] => thres nk.
exact: (@C76_zero_component _ (Kern 1 1 (fun _ _ => [:: 0; 0; 0])) thres nk 0%N 0%N).
Qed.

(** memory_fit_kernel with the type prony is the same fit. *)
Theorem C76_memory_fit curve_fit (t : FitMemory.times R) K thres nk : (1 < size (t_val t))%N ->
  memory_fit_kernel curve_fit (fun ts data => fit_serie lg tol eps svd eig data (ts`_1 - ts`_0) thres nk true) t K "prony"
  = let! L := fit_kernel lg tol eps svd eig (t_val t) K thres nk in
    Ok ("prony"%string, [seq [seq omap (@PronyP R (series R)) s | s <- row] | row <- L]).
Proof. exact: memory_fit_prony. Qed.


End C76.

Section C76_refuted.
Variable R : rcfType.
Local Notation C := R[i].
Local Notation half := (2%:R^-1 : R).
Local Notation g34 := (geo (4%:R : R) 3%:R).
Local Notation g43 := (geo (3%:R : R) 4%:R).
Local Notation svd34 := (svd_const (geoU (4%:R : R) 3%:R 5%:R) (geos (4%:R : R) 5%:R)).
Local Notation svd43 := (svd_const (geoU (3%:R : R) 4%:R 5%:R) (geos (3%:R : R) 5%:R)).

Let p3 : 0 < (3%:R : R). Proof. by rewrite ltr0n. Qed.
Let p4 : 0 < (4%:R : R). Proof. by rewrite ltr0n. Qed.
Let p5 : 0 < (5%:R : R). Proof. by rewrite ltr0n. Qed.
Let py34 : 4%:R ^+ 2 + 3%:R ^+ 2 = 5%:R ^+ 2 :> R. Proof. by rewrite -!natrX -natrD. Qed.
Let py43 : 3%:R ^+ 2 + 4%:R ^+ 2 = 5%:R ^+ 2 :> R. Proof. by rewrite -!natrX -natrD. Qed.

(** The kernel 1, 3/4, 9/16 given at the times 1, 2, 3 is fitted, and the value of the fit at the
    first of these times is 3/4: the same fit as with the times 0, 1, 2. *)
Theorem C76_shift_refuted (ex lg : C -> C) (expm : forall m, 'M[R]_m -> 'M[R]_m) tol eps :
  exp_log ex lg -> is_expm ex expm -> 0 < tol ->
  exists (svd : forall n, 'M[R]_n.+1 -> 'M[R]_n.+1 * seq R * 'M[R]_n.+1)
    (eig : forall n, 'M[R]_n -> bool * seq (C * seq C)) (K : kernel R) (times : seq R) L K',
  [/\ hsvd (hankel (k_val K 0 0) 1) (svd _ (hankel (k_val K 0 0) 1)).1.1 (svd _ (hankel (k_val K 0 0) 1)).1.2
           (svd _ (hankel (k_val K 0 0) 1)).2,
      forall J : 'M[R]_1, eigen_of J (eig _ J).1 (eig _ J).2,
      fit_kernel lg tol eps svd eig times K (Some half) None = Ok L,
      kernel_eval expm times L = Ok K'
    & (k_val K 0 0)`_0 = 1 /\ (k_val K' 0 0)`_0 = 3%:R / 4%:R].
Proof.
move=> EL EM t0; pose K := Kern 1 1 (fun _ _ => g34); pose times : seq R := [seq k%:R * 1 | k <- [:: 1; 2; 3]%N].
have ba : (3%:R : R) <= 4%:R by rewrite ler_nat.
have [A [EA ev]] := geo_fit p4 p3 p5 py34 eps EL EM t0 (oner_neq0 R) ba (svd_constE _ _ (hankel g34 1)).
have st : (1 < size times)%N by [].
have dt1 : times`_1 - times`_0 = 1 by rewrite /= !mulr1 -natrB.
have [|L [K' [EL' EK' _ _ H]]] := @round_trip _ lg tol eps svd34 (@diag_eig R) expm times times K (Some half) None
  (fun _ _ => [seq (3%:R / 4%:R) ^+ k | k <- [:: 1; 2; 3]%N]) st isT isT.
  by move=> d k _ _; exists (1, A); rewrite dt1; split=> //; exact: ev.
exists svd34, (@diag_eig R), K, times, L, K'; split=> //.
- by rewrite [k_val K 0 0]/= svd_constE; exact: geo_hsvd.
- move=> J; have := @eig_one R 1 (J 0 0); rewrite divr1 => /(_ J erefl)[E Je].
  by rewrite E.
- by split=> //; rewrite H.
Qed.

(** The growing kernel 1, 4/3, 16/9 is fitted by memory_fit_kernel with the type prony, and cannot
    be evaluated. *)
Theorem C76_removed_refuted (lg : C -> C) (expm : forall m, 'M[R]_m -> 'M[R]_m) tol eps :
  exists (svd : forall n, 'M[R]_n.+1 -> 'M[R]_n.+1 * seq R * 'M[R]_n.+1)
    (eig : forall n, 'M[R]_n -> bool * seq (C * seq C)) (K : kernel R) (t : FitMemory.times R), forall curve_fit feval,
  let prony_fit := fun ts data => fit_serie lg tol eps svd eig data (ts`_1 - ts`_0) (Some half) None true in
  let prony_eval := fun (s : series R) ts => series_eval expm ts s.1 s.2 in
  exists popt, memory_fit_kernel curve_fit prony_fit t K "prony" = Ok ("prony"%string, popt) /\
    memory_kernel_eval 0 feval prony_eval t "prony" popt = Err OutOfBounds.
Proof.
pose K := Kern 1 1 (fun _ _ => g43); pose t := Times true ([:: 0; 1; 2%:R] : seq R).
have ab : (3%:R : R) < 4%:R by rewrite ltr_nat.
have [A [EA ev]] := geo_removed p3 p4 p5 py43 lg tol eps expm (oner_neq0 R) ab (svd_constE _ _ (hankel g43 1)).
exists svd43, (@diag_eig R), K, t => curve_fit feval pf pe.
exists [:: [:: Some (@PronyP R (series R) (1, A))]]; split.
  rewrite (@memory_fit_prony _ lg tol eps svd43 (@diag_eig R) curve_fit t K (Some half) None isT).
  rewrite fit_kernelE // /K; change (iota 0 _) with [:: 0%N]; cbn [mapM iota k_x k_basis k_val].
  have -> : (t_val t)`_1 - (t_val t)`_0 = 1 by rewrite /= subr0.
  by rewrite EA.
rewrite /memory_kernel_eval; cbn [rd bind size for_ forM iota subn].
by rewrite /for_ /= /memory_fit_eval /= /call_prony /pe ev.
Qed.
End C76_refuted.

Print Assumptions C76_components.
Print Assumptions C76_eval.
Print Assumptions C76_round_trip_partial.
Print Assumptions C76_shift.
Print Assumptions C76_zero_component.
Print Assumptions C76_fit_total_refuted.
Print Assumptions C76_memory_fit.
Print Assumptions C76_shift_refuted.
Print Assumptions C76_removed_refuted.

(** A kernel of two equal components over the real numbers. *)
Local Notation RR := R_rcfType.
Local Notation g34 := (geo (4%:R : RR) 3%:R).
Local Notation svd34 := (svd_const (geoU (4%:R : RR) 3%:R 5%:R) (geos (4%:R : RR) 5%:R)).
Example C76_round_trip_example (eps dt : RR) : dt != 0 ->
  let K := Kern 2 1 (fun _ _ => g34) in
  let times := [seq i%:R * dt | i <- iota 0 3] in
  exists L K', [/\ fit_kernel clog 2%:R^-1 eps svd34 (@diag_eig RR) times K (Some 2%:R^-1) None = Ok L,
    kernel_eval (mexp cexp) times L = Ok K', k_x K' = 1%N, k_basis K' = 2%N
    & forall d k, (d < 1)%N -> (k < 2)%N -> k_val K' k d = g34].
Proof.
move=> dt0 K times; have t0 : 0 < (2%:R^-1 : RR) by rewrite invr_gt0 ltr0n.
have t1 : 0 < (2%:R^-1 : RR) <= 1 by rewrite t0 /= invf_le1 ?ltr0n // ler1n.
have a0 : 0 < (4%:R : RR) by rewrite ltr0n.
have b0 : 0 < (3%:R : RR) by rewrite ltr0n.
have c0 : 0 < (5%:R : RR) by rewrite ltr0n.
have py : 4%:R ^+ 2 + 3%:R ^+ 2 = 5%:R ^+ 2 :> RR by rewrite -!natrX -natrD.
have ba : (3%:R : RR) <= 4%:R by rewrite ler_nat.
have Ey : [seq x / g34`_0 | x <- g34] = g34 by rewrite /= !divr1.
apply: (@C76_round_trip_partial _ cexp clog 2%:R^-1 eps svd34 (@diag_eig RR) (mexp cexp) K 3 dt (Some 2%:R^-1) None
  exp_log_reals (mexpP cexpJ) t0 dt0 isT isT isT) => d k _ _; split=> //; rewrite [k_val _ _ _]/= -/g34.
rewrite /exact_series Ey.
exists (geoU (4%:R : RR) 3%:R 5%:R), (geos (4%:R : RR) 5%:R), (geoU (4%:R : RR) 3%:R 5%:R)^T, 2%:R^-1, 1%N.
exists (geo_dlu RR), [:: 1], (hankel g34 1); split.
- by split=> //; exact: oner_neq0.
- by split; [exact: svd_constE | exact: geo_hsvd].
- by split=> //; [exact: geo_keep | exact: geo_z].
- by split; [exact: geo_ldl | exact: geo_rank | exact: geo_top].
by move=> J EJ; exact: (geo_eig a0 b0 c0 py 2%:R^-1 ba EJ).
Qed.

Print Assumptions C76_round_trip_example.
