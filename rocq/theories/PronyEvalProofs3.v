(** * Proofs for the evaluation of Prony series: the fit, and what is lost. *)
From mathcomp Require Import all_ssreflect all_algebra.
From mathcomp Require Import complex.
From Verif Require Import Base EstimatorProofs Prony PronyProofs PronyProofs2 PronyProofs3.
From Verif Require Import PronyEval PronyEvalSpec PronyEvalProofs PronyEvalProofs2.
Set Implicit Arguments.
Unset Strict Implicit.
Unset Printing Implicit Defensive.
Import Order.TTheory GRing.Theory Num.Theory.
Local Open Scope ring_scope.
Local Open Scope complex_scope.

Local Lemma bindOk (A B : Type) (a : A) (f : A -> res B) : bind (Ok a) f = f a.
Proof. by []. Qed.

Section Fit.
Variable R : rcfType.
Local Notation C := R[i].
Local Notation Re := (@complex.Re R).
Local Notation Im := (@complex.Im R).
Local Notation toC := (map_mx (real_complex R)).
Variables (ex lg : C -> C) (tol : R) (expm : forall m, 'M[R]_m -> 'M[R]_m).

Lemma kept_all (remove : bool) (e : seq (eigen R)) : (remove -> forall p, p \in e -> cmod p.1 <= 1) -> kept remove e = e.
Proof. by rewrite /kept; case: remove => // h; apply/all_filterP/allP => p pe; exact: h. Qed.

Lemma clean_kept cplx (e : seq (eigen R)) dt remove :
  clean lg tol cplx e dt remove = clean lg tol cplx (kept remove e) dt false.
Proof. by []. Qed.

Lemma powers n (J : 'M[R]_n) cplx e dt (remove : bool) : exp_log ex lg -> is_expm ex expm -> eigen_of J cplx e ->
  0 < tol -> dt != 0 ->
  (forall p, p \in e -> [/\ p.1 != 0, Im p.1 = 0 \/ tol <= `|Im p.1| & remove -> cmod p.1 <= 1]) ->
  (forall p, p \in e -> negreal p.1 -> exists2 p', p' \in e & Im p'.1 != 0) ->
  exists A, clean lg tol cplx e dt remove = Ok A /\
  forall ks y0 (i0 : 'I_n), val i0 = 0%N -> size ks != 1%N ->
    series_eval expm [seq k%:R * dt | k <- ks] y0 A
    = Ok [seq y0 * iter k (mulmx J) 1%:M i0 i0 | k <- ks].
Proof.
move=> EL EM Je t0 dt0 H T; have E := eig_size Je; subst n.
rewrite clean_kept kept_all; last by move=> r p /H[_ _]; apply.
have mem j : (j < size e)%N -> nth (0, [::]) e j \in e by exact: mem_nth.
apply: (powers_kept EL Je t0 dt0) => // [j /mem/H[]//|j /mem/H[]//|j /mem jin n].
have [p' p'e np] := T _ jin n; rewrite (eig_type Je); apply/allPn.
by exists p'.
Qed.

(** ** The whole fit *)
Lemma fit_reproduces eps
    (svd : forall n, 'M[R]_n.+1 -> 'M[R]_n.+1 * seq R * 'M[R]_n.+1) (eig : forall n, 'M[R]_n -> bool * seq (eigen R)) (data : seq R) dt thres N_keep (remove : bool) :
  let y := [seq x / data`_0 | x <- data] in
  forall U s Vh t N dlu sg H, exp_log ex lg -> is_expm ex expm -> 0 < tol -> dt != 0 ->
  (2 < size data)%N -> data`_0 != 0 ->
  svd _ (hankel y (half_len y)) = (U, s, Vh) -> hsvd (hankel y (half_len y)) U s Vh ->
  keep eps (half_len y) s thres N_keep = Ok (t, N) -> 0 < t <= 1 ->
  (forall k, (N <= k)%N -> s`_k = 0) ->
  ldl_hankel eps (y := y) U s Vh thres N_keep = Ok (dlu, sg, H) ->
  size dlu = \rank (hankel y (half_len y)) ->
  (forall j, (j < size dlu)%N -> dlu`_j 0 ord_max = 0) ->
  (forall J : 'M[R]_(size dlu), get_jacobi eps (y := y) U s Vh thres N_keep = Ok (existT _ _ J) ->
     let e := (eig _ J).2 in
     [/\ eigen_of J (eig _ J).1 e,
         forall p, p \in e -> [/\ p.1 != 0, Im p.1 = 0 \/ tol <= `|Im p.1| & remove -> cmod p.1 <= 1]
       & forall p, p \in e -> negreal p.1 -> exists2 p', p' \in e & Im p'.1 != 0]) ->
  exists A, fit_serie lg tol eps svd eig data dt thres N_keep remove = Ok (data`_0, A) /\
    series_eval expm [seq k%:R * dt | k <- iota 0 (2 * half_len y).+1] data`_0 A
    = Ok (take (2 * half_len y).+1 data).
Proof.
move=> y U s Vh t N dlu sg H EL EM t0 dt0 sd d0 Es Hsv Ek t1 z El rk top HJ.
have sy : (0 < size y)%N by rewrite size_map; case: (size data) sd.
have y0 : y`_0 = 1 by rewrite (nth_map 0) ?divff //; case: (size data) sd.
have [J [EJ pw]] := reproduces sy Hsv Ek (etrans (congr1 (fun a => 0 < t <= `|a|) y0) (etrans (congr1 (fun a => 0 < t <= a) (normr1 R)) t1)) z El rk top.
have [Je h1 h2] := HJ J EJ.
have [A [EA ev]] := powers EL EM Je t0 dt0 h1 h2.
exists A; split.
  rewrite /fit_serie -/y (negPf d0); case: eqP => [s0|_]; first by rewrite s0 in sd.
  by rewrite Es EJ bindOk /=; case: (eig _ J) EA => c e /= ->.
have dl : (0 < size dlu)%N.
  have : (0 < \rank (hankel y (half_len y)))%N.
    have [h3 _] := half_lenP sy.
    have H00 : hankel y (half_len y) 0 0 = y`_0 by rewrite hankelE.
    rewrite lt0n mxrank_eq0; apply: contra_neqN (oner_neq0 R) => /eqP hz.
    by rewrite -y0 -H00 hz mxE.
  by rewrite rk.
have h0 : (0 < half_len y)%N by rewrite /half_len size_map divn_gt0 // ltn_subRL addn1.
rewrite (ev _ _ (Ordinal dl)) // ?size_iota; last by rewrite -lt0n muln_gt0 h0.
congr Ok; have [sy2 _] := half_lenP sy; rewrite size_map in sy2.
apply: (@eq_from_nth _ 0); first by rewrite size_map size_iota size_takel.
move=> k; rewrite size_map size_iota => lk; rewrite (nth_map 0%N) ?size_iota // nth_iota // add0n nth_take //.
have := pw k (Ordinal dl) lk erefl; rewrite /mpow => ->.
by rewrite y0 divr1 (nth_map 0) ?(leq_trans lk) // mulrCA divff ?mulr1.
Qed.

(** ** A negative eigenvalue when all are real *)
Lemma real_negative (e : seq (eigen R)) dt remove j : 0 < tol -> (j < size (kept remove e))%N ->
  negreal (lam (kept remove e) j) -> clean lg tol false e dt remove = Err Singular.
Proof.
move=> t0 lj /andP[nj ij]; rewrite clean_kept /clean -[kept false _]/(kept remove e).
set e' := kept remove e in lj nj ij *.
have jd : j \in dups tol e'.
  by rewrite mem_filter mem_iota lj /dupl /neg nj (eqP ij) normr0 t0.
have sd : (0 < size (dups tol e'))%N by case: (dups tol e') jd.
rewrite (_ : new_vect _ _ _ _ _ \notin unitmx) //; apply/negP => u.
pose r := rshift (size e') (Ordinal sd).
have z : row r (new_vect lg tol false dt e') = 0.
  apply/rowP => q; rewrite mxE [RHS]mxE /new_vect /r.
  case: (fintype.splitP q) => [k qk|k qk].
    by rewrite (_ : q = lshift _ k) ?block_mxEdl ?mxE /sgn ?mulr0 ?if_same //; apply: val_inj.
  by rewrite (_ : q = rshift _ k) ?block_mxEdr ?mxE /sgn ?mulr0 ?if_same //; apply: val_inj.
have := congr1 (row r) (mulmxV u); rewrite row_mul z mul0mx => /rowP/(_ r).
by rewrite !mxE eqxx => /eqP; rewrite eq_sym oner_eq0.
Qed.

(** ** A zero eigenvalue *)
Lemma zero_nan cplx (e : seq (eigen R)) dt remove p : p \in kept remove e -> p.1 = 0 ->
  clean lg tol cplx e dt remove = Err ZeroDivision \/ clean lg tol cplx e dt remove = Err Singular.
Proof.
move=> pe p0; rewrite /clean; case: ifP => _; [by right | left].
case: eqP => // _; set f := fun q : eigen R => _.
suff -> : mapM f (kept remove e) = Err ZeroDivision by [].
elim: (kept remove e) pe => //= q l IH; rewrite inE => /orP[/eqP<-|/IH ->].
  by rewrite /f /nplog p0 eqxx.
by rewrite /f /nplog; case: ifP => // _; case: ifP.
Qed.

(** ** All the terms removed; one time *)
Lemma all_removed cplx (e : seq (eigen R)) dt t0 t1 ts y0 : dt != 0 -> (forall p, p \in e -> 1 < cmod p.1) ->
  exists A, clean lg tol cplx e dt true = Ok A /\ series_eval expm [:: t0, t1 & ts] y0 A = Err OutOfBounds.
Proof.
move=> dt0 h; have E : kept true e = [::].
  by apply/eqP; rewrite -[_ == _]negbK -has_filter; apply/hasPn => p /h; rewrite ltNge.
rewrite clean_kept E /clean (_ : new_vect _ _ _ _ _ \in unitmx) ?(negPf dt0) /=.
  eexists; split; first reflexivity.
  by rewrite /series_eval /=; case: insubP.
by rewrite unitmxE det_mx00 unitr1.
Qed.

Lemma one_time t y0 A : series_eval expm [:: t] y0 A = Err OutOfBounds.
Proof. by []. Qed.

End Fit.
