(** * C75: the Prony series fitted on a time series, and its evaluation
    (fit_prony.py clean_eigenvalues, prony_fit_times_serie, prony_series_eval). *)
From Coq Require Import Reals.
From mathcomp Require Import all_ssreflect all_algebra.
From mathcomp Require Import complex.
From Verif Require Import Base Prony PronyProofs PronyProofs2 PronyProofs3 PronyWitness PronyEval PronyEvalSpec PronyEvalProofs PronyEvalProofs2 PronyEvalProofs3 PronyEvalWitness.
From Verif Require Import RealsMC RealsExp.
Set Implicit Arguments.
Unset Strict Implicit.
Unset Printing Implicit Defensive.
Import Order.TTheory GRing.Theory Num.Theory.
Local Open Scope ring_scope.
Local Open Scope complex_scope.

Section C75.
Variable R : rcfType.
Local Notation C := R[i].
Local Notation Re := (@complex.Re R).
Local Notation Im := (@complex.Im R).
Implicit Types (lg : C -> C) (tol eps : R) (e : seq (C * seq C)).

(** The matrix returned by the cleaning of the eigenvalues evaluates, at the sampling times, to the
    powers of the Jacobi matrix, as long as no eigenvalue is zero or of modulus above one when these
    are removed, and a negative eigenvalue comes with some eigenvalue that is not real. *)
Theorem C75_powers_partial (ex lg : C -> C) (expm : forall m, 'M[R]_m -> 'M[R]_m) tol n (J : 'M[R]_n) cplx e dt (remove : bool) :
  exp_log ex lg -> is_expm ex expm -> eigen_of J cplx e -> 0 < tol -> dt != 0 ->
  (forall p, p \in e -> [/\ p.1 != 0, Im p.1 = 0 \/ tol <= `|Im p.1| & remove -> modulus p.1 <= 1]) ->
  (forall p, p \in e -> negreal p.1 -> exists2 p', p' \in e & Im p'.1 != 0) ->
  exists A, clean lg tol cplx e dt remove = Ok A /\
  forall ks y0 (i0 : 'I_n), val i0 = 0%N -> size ks != 1%N ->
    series_eval expm [seq k%:R * dt | k <- ks] y0 A
    = Ok [seq y0 * iter k (mulmx J) 1%:M i0 i0 | k <- ks].
Proof. exact: powers. Qed.

(** Fitting a series whose Hankel matrix is kept whole and evaluating the fit at the sampling times
    gives the series back. *)
Theorem C75_fit_partial (ex lg : C -> C) (expm : forall m, 'M[R]_m -> 'M[R]_m) tol eps
    (svd : forall n, 'M[R]_n.+1 -> 'M[R]_n.+1 * seq R * 'M[R]_n.+1)
    (eig : forall n, 'M[R]_n -> bool * seq (C * seq C)) (data : seq R) dt thres N_keep (remove : bool) :
  let y := [seq x / data`_0 | x <- data] in
  forall U s Vh t N dlu sg H, exp_log ex lg -> is_expm ex expm -> 0 < tol -> dt != 0 ->
  (2 < size data)%N -> data`_0 != 0 ->
  svd _ (hankel y (half_len y)) = (U, s, Vh) -> hsvd (hankel y (half_len y)) U s Vh ->
  keep eps (half_len y) s thres N_keep = Ok (t, N) -> 0 < t <= 1 ->
  (forall k, (N <= k)%N -> s`_k = 0) ->
  ldl_hankel eps (y := y) U s Vh thres N_keep = Ok (dlu, sg, H) ->
  size dlu = \rank (hankel y (half_len y)) ->
  (forall j, (j < size dlu)%N -> dlu`_j 0 ord_max = 0) ->
  (forall J : 'M[R]_(size dlu), get_jacobi eps (y := y) U s Vh thres N_keep = Ok (existT _ _ J) ->
     let e := (eig _ J).2 in
     [/\ eigen_of J (eig _ J).1 e,
         forall p, p \in e -> [/\ p.1 != 0, Im p.1 = 0 \/ tol <= `|Im p.1| & remove -> modulus p.1 <= 1]
       & forall p, p \in e -> negreal p.1 -> exists2 p', p' \in e & Im p'.1 != 0]) ->
  exists A, fit_serie lg tol eps svd eig data dt thres N_keep remove = Ok (data`_0, A) /\
    series_eval expm [seq k%:R * dt | k <- iota 0 (2 * half_len y).+1] data`_0 A
    = Ok (take (2 * half_len y).+1 data).
Proof. exact: fit_reproduces. Qed.

(** A negative eigenvalue among real ones makes the fit fail. *)
Theorem C75_real_negative lg tol n (J : 'M[R]_n) cplx e dt (remove : bool) p : 0 < tol ->
  eigen_of J cplx e -> (forall q, q \in e -> Im q.1 = 0) ->
  p \in e -> negreal p.1 -> (remove -> modulus p.1 <= 1) ->
  clean lg tol cplx e dt remove = Err Singular.
Proof.
move=> t0 Je re pe np pm.
have -> : cplx = false by rewrite (eig_type Je); apply/negbF/allP => q /re ->.
have pk : p \in kept remove e by rewrite /kept; case: remove pm => // pm; rewrite mem_filter pe andbT; exact: pm.
by apply: (@real_negative _ _ _ _ _ _ (index p (kept remove e))); rewrite ?index_mem // /lam nth_index.
Qed.

(** It happens on the series 1, 0, 1, 0, 1, whose Hankel matrix is kept whole. *)
Theorem C75_fit_refuted lg tol eps dt (remove : bool) : 0 < tol ->
  exists (data : seq R) U s Vh, hsvd (hankel data (half_len data)) U s Vh /\
  forall (svd : forall n, 'M[R]_n.+1 -> 'M[R]_n.+1 * seq R * 'M[R]_n.+1) (eig : forall n, 'M[R]_n -> bool * seq (C * seq C)),
  svd _ (hankel data (half_len data)) = (U, s, Vh) ->
  (forall J : {r : nat & 'M[R]_r}, get_jacobi eps (y := data) U s Vh (Some 2%:R^-1) None = Ok J ->
     eigen_of (projT2 J) (eig _ (projT2 J)).1 (eig _ (projT2 J)).2) ->
  fit_serie lg tol eps svd eig data dt (Some 2%:R^-1) None remove = Err Singular.
Proof. by move=> t0; exists (alt R); exact: alternating. Qed.

(** A zero eigenvalue gives nan or fails. *)
Theorem C75_zero lg tol cplx e dt (remove : bool) p : p \in e -> p.1 = 0 ->
  clean lg tol cplx e dt remove = Err ZeroDivision \/ clean lg tol cplx e dt remove = Err Singular.
Proof.
move=> pe p0; apply: (zero_nan lg tol cplx dt _ p0).
rewrite /kept; case: remove => //; rewrite mem_filter pe andbT p0.
by rewrite (_ : 0 = 0%:C) // cmod_real normr0 ler01.
Qed.

(** Removing an eigenvalue changes the amplitude of those that are left: the series
    2^k/2 + 2^-k/2 without its increasing term becomes 2^-k. *)
Theorem C75_removal_refuted (ex lg : C -> C) (expm : forall m, 'M[R]_m -> 'M[R]_m) tol dt :
  exp_log ex lg -> is_expm ex expm -> 0 < tol -> dt != 0 ->
  exists (J : 'M[R]_2) e, [/\ eigen_of J false e,
    forall k, iter k (mulmx J) 1%:M 0 0 = 2%:R^-1 * 2%:R ^+ k + 2%:R^-1 * 2%:R^-1 ^+ k
  & exists A, clean lg tol false e dt true = Ok A /\
    forall ks y0, size ks != 1%N ->
      series_eval expm [seq k%:R * dt | k <- ks] y0 A = Ok [seq y0 * 2%:R^-1 ^+ k | k <- ks]].
Proof.
move=> EL EM t0 dt0; exists (Jg R), (eg R); split; [exact: eg_eig | by move=> k; exact: Jg_powers | exact: removal EL EM t0 dt0].
Qed.

(** When all are removed the fit succeeds and its evaluation fails. *)
Theorem C75_all_removed lg (expm : forall m, 'M[R]_m -> 'M[R]_m) tol cplx e dt t0 t1 ts y0 : dt != 0 ->
  (forall p, p \in e -> 1 < modulus p.1) ->
  exists A, clean lg tol cplx e dt true = Ok A /\ series_eval expm [:: t0, t1 & ts] y0 A = Err OutOfBounds.
Proof. exact: all_removed. Qed.

(** No series can be evaluated at a single time. *)
Theorem C75_one_time_refuted (expm : forall m, 'M[R]_m -> 'M[R]_m) : exists t, forall y0 (A : {m & 'M[R]_m}),
  series_eval expm [:: t] y0 A = Err OutOfBounds.
Proof. by exists 0 => y0 A; exact: one_time. Qed.

End C75.

Print Assumptions C75_powers_partial.
Print Assumptions C75_fit_partial.
Print Assumptions C75_real_negative.
Print Assumptions C75_fit_refuted.
Print Assumptions C75_zero.
Print Assumptions C75_removal_refuted.
Print Assumptions C75_all_removed.
Print Assumptions C75_one_time_refuted.

(** The hypotheses are met over the real numbers, with their exponential and principal logarithm, by
    the eigenvalues -1/2, i and -i. *)
Example C75_powers_example (dt : R_rcfType) : dt != 0 ->
  exists A, clean clog (2%:R^-1) true (er R_rcfType) dt true = Ok A /\
  forall ks y0 (i0 : 'I_3), val i0 = 0%N -> size ks != 1%N ->
    series_eval (mexp cexp) [seq k%:R * dt | k <- ks] y0 A
    = Ok [seq y0 * iter k (mulmx (Jr R_rcfType)) 1%:M i0 i0 | k <- ks].
Proof.
have t1 : 0 < (2%:R^-1 : R_rcfType) <= 1 by rewrite invr_gt0 ltr0n /= invf_le1 ?ltr0n // ler1n.
have t0 : 0 < (2%:R^-1 : R_rcfType) by case/andP: t1.
have [h [p' [q' [_ _ qe qi]]]] := er_ok t1.
move=> dt0; apply: (C75_powers_partial exp_log_reals (mexpP cexpJ) (er_eig _) t0 dt0) => [p /h[a b c]|p _ _] //.
by exists q'.
Qed.

Local Notation RR := R_rcfType.
Local Notation geo34 := (geo (4%:R : RR) 3%:R).
Local Notation geoU34 := (geoU (4%:R : RR) 3%:R 5%:R).
Local Notation geos34 := (geos (4%:R : RR) 5%:R).

(** 1, 3/4, 9/16 *)
Example C75_fit_example (eps dt : RR) : dt != 0 ->
  exists svd A, fit_serie clog (2%:R^-1) eps svd (@diag_eig RR) geo34 dt (Some 2%:R^-1) None true
                = Ok (1, A) /\
    series_eval (mexp cexp) [seq k%:R * dt | k <- iota 0 3] 1 A = Ok geo34.
Proof.
move=> dt0; have t0 : 0 < (2%:R^-1 : RR) by rewrite invr_gt0 ltr0n.
have t1 : 0 < (2%:R^-1 : RR) <= 1 by rewrite t0 /= invf_le1 ?ltr0n // ler1n.
have a0 : 0 < (4%:R : RR) by rewrite ltr0n.
have b0 : 0 < (3%:R : RR) by rewrite ltr0n.
have c0 : 0 < (5%:R : RR) by rewrite ltr0n.
have py : 4%:R ^+ 2 + 3%:R ^+ 2 = 5%:R ^+ 2 :> RR by rewrite -!natrX -natrD.
have ba : (3%:R : RR) <= 4%:R by rewrite ler_nat.
exists (svd_const geoU34 geos34).
have Es : svd_const geoU34 geos34 (hankel geo34 (half_len geo34)) = (geoU34, geos34, geoU34^T) by exact: svd_constE.
have Ey : [seq x / geo34`_0 | x <- geo34] = geo34 by rewrite /= !divr1.
have := @C75_fit_partial _ cexp clog (mexp cexp) 2%:R^-1 eps (svd_const geoU34 geos34) (@diag_eig RR) geo34 dt (Some 2%:R^-1) None true.
cbv zeta; rewrite Ey.
move/(_ _ _ _ _ _ _ _ _ exp_log_reals (mexpP cexpJ) t0 dt0 isT (oner_neq0 _) Es (geo_hsvd a0 c0 py) (geo_keep a0 py _) t1).
apply; [exact: geo_z | exact: geo_ldl a0 c0 py _ | exact: geo_rank | exact: geo_top | ].
move=> J EJ; have [a b c] := geo_eig a0 b0 c0 py 2%:R^-1 ba EJ; split=> // p /b[b1 b2 b3]; split=> //.
Qed.

(** The single eigenvalue 2 is removed. *)
Example C75_all_removed_example : forall p, p \in [:: ((2%:R : R_rcfType)%:C, [:: 1 : R_rcfType[i]])] -> 1 < modulus p.1.
Proof.
move=> p; rewrite inE => /eqP ->; rewrite -[modulus _]/(cmod _) cmod_real ger0_norm ?ler0n // ltr1n //.
Qed.

Print Assumptions C75_powers_example.
Print Assumptions C75_fit_example.
