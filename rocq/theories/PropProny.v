(** * Properties C47 to C50: Prony series and fits of memory kernels. *)
From mathcomp Require Import all_ssreflect all_algebra.
From mathcomp Require Import zify.
From Coq Require Import String.
From Verif Require Import Base Prony PronyProofs PronyProofs3 PronyWitness FitMemory FitMemoryProofs.
Set Implicit Arguments.
Unset Strict Implicit.
Unset Printing Implicit Defensive.
Import Order.TTheory GRing.Theory Num.Theory.
Local Open Scope ring_scope.

(** ** C47 *)
Theorem C47_round_trip_partial (R : rcfType) (y : seq R) junk : (0 < size y)%N ->
  reconstruct_data (hankel y (half_len y)) junk = take (2 * half_len y).+1 y
  /\ (odd (size y) -> reconstruct_data (hankel y (half_len y)) junk = y).
Proof.
move=> y0; have [h1 h2] := half_lenP y0; rewrite reconstruct_hankel //; split=> // o.
by rewrite take_oversize //; move: o y0; rewrite /half_len; slia.
Qed.
Print Assumptions C47_round_trip_partial.

(** A series with an even number of samples always loses the last one. *)
Theorem C47_even_refuted (R : rcfType) (y : seq R) junk : (0 < size y)%N -> ~~ odd (size y) ->
  reconstruct_data (hankel y (half_len y)) junk <> y.
Proof.
move=> y0 e E; have [h1 h2] := half_lenP y0.
have := congr1 size E; rewrite reconstruct_hankel // size_takel // => E2.
by move: e; rewrite -E2 mul2n /= odd_double.
Qed.
Print Assumptions C47_even_refuted.

Theorem C47_inspect_partial (R : rcfType) eps (data : seq R) :
  let y := map (fun x => x / data`_0) data in
  forall (U Vh : 'M[R]_((half_len y).+1)) s thres N_keep t N junk,
  (0 < size data)%N -> data`_0 != 0 -> hsvd (hankel y (half_len y)) U s Vh ->
  keep eps (half_len y) s thres N_keep = Ok (t, N) -> (forall k, (N <= k)%N -> s`_k = 0) ->
  prony_inspect eps U s Vh thres N_keep junk = Ok (take (2 * half_len y).+1 data).
Proof.
move=> y U Vh s thres N_keep t N junk s0 d0 Hsv Ek z.
have sy : (0 < size y)%N by rewrite size_map.
have [h1 _] := half_lenP sy.
rewrite /prony_inspect -/y (gtn_eqF s0) (negPf d0) Ek /= (filtered_full Hsv z) reconstruct_hankel //.
congr Ok; rewrite map_take; congr take; rewrite /y -map_comp map_id_in // => x _ /=.
by rewrite mulrC divfK.
Qed.
Print Assumptions C47_inspect_partial.

(** The hypotheses hold for the series 1 0 1 0 1, of which two singular values are kept. *)
Example C47_example (R : rcfType) (eps : R) : let data : seq R := [:: 1; 0; 1; 0; 1] in
  let y := map (fun x => x / data`_0) data in
  exists (U Vh : 'M[R]_((half_len y).+1)) s,
    [/\ hsvd (hankel y (half_len y)) U s Vh, keep eps (half_len y) s (Some 2%:R^-1) None = Ok (2%:R^-1, 2%N)
      & forall k, (2 <= k)%N -> s`_k = 0].
Proof.
move=> data y; have -> : y = alt R by rewrite /y map_id_in // => x _ /=; rewrite divr1.
exists (altU R), (altU R)^T, [:: 2%:R; 1; 0]; split; [exact: alt_hsvd | exact: alt_keep |].
by case=> [|[|[|k]]] //= _; rewrite nth_nil.
Qed.

(** ** C48 *)

(** With a positive threshold the factorisation fails exactly when no diagonal entry of the
    filtered matrix passes it, and otherwise the rows returned are orthonormal up to sign. *)
Theorem C48_factorisation_partial (R : rcfType) eps (y : seq R) (U Vh : 'M[R]_((half_len y).+1)) s thres N_keep t N :
  hsvd (hankel y (half_len y)) U s Vh -> keep eps (half_len y) s thres N_keep = Ok (t, N) -> 0 < t ->
  let H := filtered U s Vh N in
  if (N == 0%N) || [forall i, `|H i i| < t] then
    ldl_hankel eps U s Vh thres N_keep = Err ValueError
  else exists dlu sg, ldl_hankel eps U s Vh thres N_keep = Ok (dlu, sg, H) /\
    [/\ (0 < size dlu <= N)%N, (N <= half_len y)%N, size sg = size dlu
      & forall i j, (i < size dlu)%N -> (j < size dlu)%N ->
          (dlu`_i *m H *m (dlu`_j)^T) 0 0 = (if i == j then sg`_i else 0) /\ (sg`_i = 1 \/ sg`_i = -1)].
Proof.
move=> Hsv Ek t0 H; have := get_jacobiE Hsv Ek t0; rewrite -/H /=.
case: ifP => c; first by rewrite /get_jacobi; case: (ldl_hankel _ _ _ _ _ _) => [[[? ?] ?]|e] //= [->].
case=> dlu [sg [-> [sN ss] QHQ sg1 _]]; exists dlu, sg; split=> //; split=> //; first exact: keep_pos Ek.
move=> i j li lj; split; last exact: sg1.
have /matrixP/(_ (Ordinal li) (Ordinal lj)) := QHQ.
have rQ k (lk : (k < size dlu)%N) : dlu`_k = row (Ordinal lk) (stack dlu) by rewrite rowK.
rewrite (rQ i li) (rQ j lj) tr_row -row_mul => E.
have -> : (row (Ordinal li) (stack dlu *m H) *m col (Ordinal lj) (stack dlu)^T) 0 0
          = (stack dlu *m H *m (stack dlu)^T) (Ordinal li) (Ordinal lj).
  by rewrite [LHS]mxE [RHS]mxE; apply: eq_bigr => k _; rewrite [row _ _ _ _]mxE [col _ _ _ _]mxE.
by rewrite E !mxE -val_eqE /=; case: eqP.
Qed.
Print Assumptions C48_factorisation_partial.

(** Number of terms never above the number asked for. *)
Theorem C48_number (R : rcfType) eps (n : nat) (s : seq R) thres k t N :
  keep eps n s thres (Some k) = Ok (t, N) -> (N <= k)%N.
Proof.
rewrite /keep /=; case: (rd _ _) => //= a [_ <-].
by apply: leq_trans (geq_minl _ _) (geq_minl _ _).
Qed.
Print Assumptions C48_number.

(** Asking for as many terms as there are singular values: IndexError. *)
Theorem C48_index_refuted (R : rcfType) (eps : R) : let y : seq R := [:: 1; 0; 1] in
  exists (U Vh : 'M[R]_2) s,
  [/\ hsvd (hankel y (half_len y)) U s Vh, forall i : 'I_2, 2%:R^-1 <= `|hankel y (half_len y) i i|
    & get_jacobi eps (y := y) U s Vh (Some 2%:R^-1) (Some 2%N) = Err OutOfBounds].
Proof. exact: index_refuted. Qed.
Print Assumptions C48_index_refuted.

(** Asking for as many terms as the rank: the threshold becomes zero, an isotropic vector is
    kept and the result is not a number. *)
Theorem C48_threshold_refuted (R : rcfType) (eps : R) : 0 < eps < 12%:R^-1 ->
  let y : seq R := [:: 1; 1; 1; 1; 3%:R] in
  exists (U Vh : 'M[R]_3) s, hsvd (hankel y (half_len y)) U s Vh /\
    get_jacobi eps (y := y) U s Vh None (Some 2%N) = Err ZeroDivision.
Proof. exact: threshold_refuted. Qed.
Print Assumptions C48_threshold_refuted.

(** ** C49 *)
Theorem C49_powers_partial (R : rcfType) eps (y : seq R) (U Vh : 'M[R]_((half_len y).+1)) s thres N_keep t N dlu sg H :
  (0 < size y)%N -> hsvd (hankel y (half_len y)) U s Vh ->
  keep eps (half_len y) s thres N_keep = Ok (t, N) -> 0 < t <= `|y`_0| ->
  (forall k, (N <= k)%N -> s`_k = 0) ->
  ldl_hankel eps U s Vh thres N_keep = Ok (dlu, sg, H) ->
  size dlu = \rank (hankel y (half_len y)) ->
  (forall j, (j < size dlu)%N -> dlu`_j 0 ord_max = 0) ->
  exists J : 'M[R]_(size dlu), get_jacobi eps U s Vh thres N_keep = Ok (existT _ _ J) /\
    forall k (i0 : 'I_(size dlu)), (k <= 2 * half_len y)%N -> val i0 = 0%N ->
      iter k (mulmx J) 1%:M i0 i0 = y`_k / y`_0.
Proof. exact: reproduces. Qed.
Print Assumptions C49_powers_partial.

(** The last of an even number of samples is not reproduced. *)
Theorem C49_even_refuted (R : rcfType) (eps : R) : let y : seq R := [:: 1; 0; 0; 1] in
  exists (U Vh : 'M[R]_2) s dlu sg H J,
  [/\ hsvd (hankel y (half_len y)) U s Vh, ldl_hankel eps (y := y) U s Vh (Some 2%:R^-1) None = Ok (dlu, sg, H),
      size dlu = \rank (hankel y (half_len y)),
      get_jacobi eps (y := y) U s Vh (Some 2%:R^-1) None = Ok (existT _ (size dlu) J)
    & exists2 i0, val i0 = 0%N & iter 3 (mulmx J) 1%:M i0 i0 != y`_3 / y`_0].
Proof. exact: even_refuted. Qed.
Print Assumptions C49_even_refuted.

(** The hypotheses of C48 and C49 hold for the series 1 0 1 0 1. *)
Example C49_example (R : rcfType) (eps : R) : let y : seq R := [:: 1; 0; 1; 0; 1] in
  exists (U Vh : 'M[R]_3) s dlu sg H,
  [/\ hsvd (hankel y (half_len y)) U s Vh, keep eps (half_len y) s (Some 2%:R^-1) None = Ok (2%:R^-1, 2%N),
      ldl_hankel eps (y := y) U s Vh (Some 2%:R^-1) None = Ok (dlu, sg, H),
      size dlu = \rank (hankel y (half_len y))
    & forall j, (j < size dlu)%N -> dlu`_j 0 ord_max = 0].
Proof. exact: alt_reproduced. Qed.

(** ** C50 *)
Section Fits.
Variables (R P : Type) (R0 : R).
Variable curve_fit : func -> seq R -> seq R -> nat -> seq R.
Variable prony_fit : seq R -> seq R -> res P.
Variable feval : func -> seq R -> R -> R.
Variable prony_eval : P -> seq R -> res (seq R).

Theorem C50_unknown ty t data (p : params R P) : ~ List.In ty names ->
  memory_fit curve_fit prony_fit t data ty = Err ValueError
  /\ memory_fit_eval feval prony_eval t ty p = Err ValueError.
Proof. exact: unknown. Qed.

(** Every documented analytic type is fitted, whether the times are flat or a column. *)
Theorem C50_fit_total ty f t data : List.In (ty, f) table -> (1 < size (t_val t))%N -> (0 < size data)%N ->
  memory_fit curve_fit prony_fit t data ty = Ok (ty, Popt P (curve_fit f (t_val t) data (arity f))).
Proof. exact: fit_total. Qed.

(** Least squares returns as many parameters as starting values. *)
Hypothesis curve_fit_size : forall f t d n, size (curve_fit f t d n) = n.

Theorem C50_fit_then_eval ty t data ty' (p : params R P) : memory_fit curve_fit prony_fit t data ty = Ok (ty', p) ->
  ty' = ty /\
  ((exists f, [/\ List.In (ty, f) table, p = Popt P (curve_fit f (t_val t) data (arity f))
     & memory_fit_eval feval prony_eval t ty p
       = Ok (Times (t_flat t) (map (feval f (curve_fit f (t_val t) data (arity f))) (t_val t)))])
   \/ (exists q, [/\ ty = "prony"%string, prony_fit (t_val t) data = Ok q, p = PronyP R q
        & memory_fit_eval feval prony_eval t ty p = let! v := prony_eval q (t_val t) in Ok (Times true v)])).
Proof. exact: fit_eval. Qed.

(** Prony series can be fitted and not evaluated: see C76. *)
Theorem C50_kernel_partial t K ty ty' (popt : seq (seq (option (params R P)))) : t_flat t -> (0 < k_x K)%N ->
  memory_fit_kernel curve_fit prony_fit t K ty = Ok (ty', popt) ->
  (forall k d q, (k < k_basis K)%N -> (d < k_x K)%N -> ty = "prony"%string ->
     prony_fit (t_val t) (k_val K k d) = Ok q -> exists v, prony_eval q (t_val t) = Ok v) ->
  exists2 fit, memory_kernel_eval R0 feval prony_eval t ty' popt = Ok fit &
    [/\ k_basis fit = k_basis K, k_x fit = k_x K
      & forall k d, (k < k_basis K)%N -> (d < k_x K)%N ->
          exists p r, [/\ memory_fit curve_fit prony_fit t (k_val K k d) ty = Ok (ty', p),
                          memory_fit_eval feval prony_eval t ty' p = Ok r & k_val fit k d = t_val r]].
Proof. exact: kernel_round_trip. Qed.

(** Times given as a column of two or more rows: always fitted, never evaluated. *)
Theorem C50_column_refuted K ty (popt : seq (seq (option (params R P)))) t0 t1 ts :
  let t := Times false [:: t0, t1 & ts] in
  (0 < k_x K)%N -> (0 < k_basis K)%N -> ty <> "prony"%string ->
  memory_fit_kernel curve_fit prony_fit t K ty = Ok (ty, popt) ->
  memory_kernel_eval R0 feval prony_eval t ty popt = Err ValueError.
Proof. exact: kernel_column. Qed.
End Fits.
Print Assumptions C50_unknown.
Print Assumptions C50_fit_total.
Print Assumptions C50_fit_then_eval.
Print Assumptions C50_kernel_partial.
Print Assumptions C50_column_refuted.

(** A column of times, two components, exponentials. *)
Example C50_example :
  let cf := fun (_ : func) (_ _ : seq nat) n => nseq n 1%N in
  let pf := fun (_ _ : seq nat) => Err ValueError : res unit in
  let K := Kern 2 1 (fun k _ => [:: k; 0%N]) in
  let t := Times false [:: 0%N; 1%N] in
  (exists popt, memory_fit_kernel cf pf t K "exp" = Ok ("exp"%string, popt))
  /\ ~ List.In "cosine"%string names.
Proof. by split; [eexists; reflexivity | move=> /=; intuition discriminate]. Qed.
