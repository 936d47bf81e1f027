(** * Witnesses for the evaluation of Prony series. *)
From mathcomp Require Import all_ssreflect all_algebra.
From mathcomp Require Import complex.
From Verif Require Import Base Tactics EstimatorProofs Prony PronyProofs PronyProofs2 PronyProofs3 PronyWitness.
From Verif Require Import PronyEval PronyEvalSpec PronyEvalProofs PronyEvalProofs2 PronyEvalProofs3.
Set Implicit Arguments.
Unset Strict Implicit.
Unset Printing Implicit Defensive.
Import Order.TTheory GRing.Theory Num.Theory.
Local Open Scope ring_scope.
Local Open Scope complex_scope.

Local Lemma bindOk (A B : Type) (a : A) (f : A -> res B) : bind (Ok a) f = f a.
Proof. by []. Qed.

Section Witness.
Variable R : rcfType.
Local Notation C := R[i].
Local Notation Re := (@complex.Re R).
Local Notation Im := (@complex.Im R).
Local Notation toC := (map_mx (real_complex R)).
Local Notation half := (2%:R^-1 : R).
Add Field RF : (mc_field_theory R).
Local Ltac rng := fold_ring (Num.RealClosedField.fieldType R); ring.

Lemma cmod_real (x : R) : cmod x%:C = `|x|.
Proof. by rewrite /cmod /= expr0n addr0 sqrtr_sqr. Qed.

Lemma halfD : half + half = 1.
Proof. by rewrite [RHS](splitr 1) !mul1r. Qed.

Lemma half2 : half * 2%:R = 1.
Proof. by rewrite mulVf // pnatr_eq0. Qed.

(** ** A growing term and a decaying one *)
Definition Jg : 'M[R]_2 := \matrix_(i, j) if i == j then 1 + half ^+ 2 else 1 - half ^+ 2.
Definition eg : seq (eigen R) := [:: (2%:R%:C, [:: 1; 1]); (half%:C, [:: 1; -1])].

Lemma eg_eig : eigen_of Jg false eg.
Proof.
have hC : half%:C + half%:C = 1 by rewrite -rmorphD halfD.
have h2 : half ^+ 2 + half ^+ 2 = half by rewrite expr2 -mulrDr halfD mulr1.
split=> //.
- pose X : 'M[C]_2 := \matrix_(i, j) if (i == 1) && (j == 1) then - half%:C else half%:C.
  suff h : (\matrix_(i < 2, j < 2) (nth (0, [::]) eg j).2`_i) *m X = 1%:M by case: (mulmx1_unit h).
  apply/matrixP => i j; rewrite !mxE !big_ord_recl big_ord0 !mxE addr0.
  by case: i => [[|[|i]]] //= ?; case: j => [[|[|j]]] //= ?; rewrite ?mul1r ?mulN1r ?opprK ?subrr.
- move=> i j; rewrite !big_ord_recl big_ord0 !mxE addr0.
  have e1 : (1 + half ^+ 2)%:C + (1 - half ^+ 2)%:C = 2%:R%:C by rewrite -rmorphD mulr2n; congr (_%:C); abel.
  have e2 : (1 + half ^+ 2)%:C - (1 - half ^+ 2)%:C = half%:C by rewrite -rmorphB -[RHS]/(real_complex R half) -[in RHS]h2; congr (_%:C); abel.
  case: i => [[|[|i]]] //= ?; case: j => [[|[|j]]] //= ?; rewrite ?mulr1 ?mulrN1 ?e1 ?e2 //.
  + by rewrite addrC e1.
  + by rewrite -e2 opprB addrC.
- by case=> [[|[|i]]] //= ?; case=> [[|[|j]]] //= ? _; rewrite ?oppr0.
- by rewrite /= eqxx.
Qed.

Lemma Jg_powers k (i0 : 'I_2) : val i0 = 0%N -> iter k (mulmx Jg) 1%:M i0 i0 = half * 2%:R ^+ k + half * half ^+ k.
Proof.
move=> iz; have -> : i0 = 0 by apply: val_inj.
suff [-> _] : iter k (mulmx Jg) 1%:M 0 0 = half * 2%:R ^+ k + half * half ^+ k
           /\ iter k (mulmx Jg) 1%:M 1 0 = half * 2%:R ^+ k - half * half ^+ k by [].
elim: k => [|k [IH1 IH2]]; first by rewrite /= !mxE /= !expr0 mulr1 halfD subrr.
have q2 : 2%:R * half = 1 by rewrite mulrC half2.
rewrite !iterS ![(_ *m _) _ _]mxE !big_ord_recl !big_ord0 !addr0.
have -> : lift ord0 ord0 = 1 :> 'I_2 by apply: val_inj.
rewrite IH1 IH2 !mxE /= [half ^+ 2]expr2 !exprS.
have h0 : half != 0 by rewrite invr_neq0 // pnatr_eq0.
set a := 2%:R ^+ k; set b := half ^+ k.
have E1 : (1 + half * half) * (half * a + half * b) + (1 - half * half) * (half * a - half * b)
          = (half + half) * a + half * half * (half + half) * b by rng.
have E2 : (1 - half * half) * (half * a + half * b) + (1 + half * half) * (half * a - half * b)
          = (half + half) * a - half * half * (half + half) * b by rng.
by split; [rewrite E1 | rewrite E2]; rewrite halfD mul1r mulr1 mulrA half2 mul1r mulrA.
Qed.

(** Removing the growing term changes the amplitude of the other. *)
Lemma removal (ex lg : C -> C) tol (expm : forall m, 'M[R]_m -> 'M[R]_m) dt : exp_log ex lg -> is_expm ex expm ->
  0 < tol -> dt != 0 ->
  exists A, clean lg tol false eg dt true = Ok A /\
    forall ks y0, size ks != 1%N ->
      series_eval expm [seq k%:R * dt | k <- ks] y0 A = Ok [seq y0 * half ^+ k | k <- ks].
Proof.
move=> EL EM t0 dt0.
have E : kept true eg = [:: (half%:C, [:: 1; -1])].
  have l1 : `|2%:R : R| <= 1 = false by rewrite ger0_norm ?ler0n // lern1.
  have l2 : `|half| <= 1 by rewrite ger0_norm ?invr_ge0 ?ler0n // invf_le1 ?ltr0n // ler1n.
  by rewrite /kept /eg /= !cmod_real l1 l2.
have h0 : half != 0 by rewrite invr_neq0 // pnatr_eq0.
have hp : 0 <= half by rewrite invr_ge0 ler0n.
pose J : 'M[R]_1 := half%:M.
have Je : eigen_of J false [:: (half%:C, [:: 1; -1])].
  split=> //.
  - by rewrite unitmxE det_mx11 mxE unitr1.
  - by move=> i j; rewrite !ord1 big_ord_recl big_ord0 /= mxE eqxx mulr1n addr0.
  - by move=> i j; rewrite !ord1.
  - by rewrite /= eqxx.
rewrite clean_kept E.
have [A [EA ev]] : exists A, clean lg tol false [:: (half%:C, [:: 1; -1])] dt false = Ok A /\
  forall ks y0 (i0 : 'I_1), val i0 = 0%N -> size ks != 1%N ->
    series_eval expm [seq k%:R * dt | k <- ks] y0 A = Ok [seq y0 * iter k (mulmx J) 1%:M i0 i0 | k <- ks].
  apply: (powers EL EM Je t0 dt0) => p; rewrite inE => /eqP -> /=.
    by split=> //; [apply: contra_neq h0 => -[] | left].
  by rewrite /negreal /= ltNge hp.
exists A; split=> // ks y0 sk; rewrite (ev ks y0 ord0) //; congr Ok; apply: eq_map => k.
congr (_ * _); elim: k => [|k IH] /=; first by rewrite mxE eqxx.
by rewrite mxE big_ord_recl big_ord0 addr0 IH exprS mxE eqxx mulr1n.
Qed.

(** ** A rotation and a decaying alternation *)
Definition Jr : 'M[R]_3 := \matrix_(i, j)
  nth 0 (nth [::] [:: [:: - half; 0; 0]; [:: 0; 0; -1]; [:: 0; 1; 0]] i) j.
Definition er : seq (eigen R) :=
  [:: ((- half)%:C, [:: 1; 0; 0]); ('i%C, [:: 0; 1; - 'i%C]); (- 'i%C, [:: 0; 1; 'i%C])].

Lemma er_eig : eigen_of Jr true er.
Proof.
have ii : 'i%C * 'i%C = -1 :> C by rewrite -expr2 sqr_i.
split=> //.
- pose X : 'M[C]_3 := \matrix_(i, j)
    nth 0 (nth [::] [:: [:: 1; 0; 0]; [:: 0; half%:C; half%:C * 'i%C]; [:: 0; half%:C; - half%:C * 'i%C]] i) j.
  suff h : (\matrix_(i < 3, j < 3) (nth (0, [::]) er j).2`_i) *m X = 1%:M by case: (mulmx1_unit h).
  have hC : half%:C + half%:C = 1 by rewrite -rmorphD halfD.
  apply/matrixP => i j; rewrite !mxE !big_ord_recl big_ord0 !mxE addr0.
  case: i => [[|[|[|i]]]] //= ?; case: j => [[|[|[|j]]]] //= ?;
    rewrite ?mulr0 ?mul0r ?mul1r ?mulr1 ?addr0 ?add0r //.
  + by rewrite mulNr subrr.
  + by rewrite mulNr addNr.
  + by rewrite !mulNr mulrN mulrCA ii mulrN1 opprK.
- move=> i j; rewrite !big_ord_recl big_ord0 !mxE addr0.
  case: i => [[|[|[|i]]]] //= ?; case: j => [[|[|[|j]]]] //= ?;
    rewrite ?rmorph0 ?rmorph1 ?rmorphN1 ?mulr0 ?mul0r ?mul1r ?mulr1 ?addr0 ?add0r ?mulN1r ?opprK //.
  + by rewrite mulrN ii opprK.
  + by rewrite mulNr ii opprK.
- by case=> [[|[|[|i]]]] //= ?; case=> [[|[|[|j]]]] //= ? /eqP; rewrite ?oner_eq0 ?oppr_eq0 ?oner_eq0.
- by rewrite /= oner_eq0 andbF.
Qed.

Lemma er_ok tol : 0 < tol <= 1 ->
  (forall p, p \in er -> [/\ p.1 != 0, Im p.1 = 0 \/ tol <= `|Im p.1| & cmod p.1 <= 1])
  /\ (exists p p', [/\ p \in er, negreal p.1, p' \in er & Im p'.1 != 0]).
Proof.
case/andP=> t0 t1; have hp : 0 < half by rewrite invr_gt0 ltr0n.
split=> [p|].
  rewrite !inE => /or3P[] /eqP -> /=; split.
  - by rewrite eq_complex /= oppr_eq0 gt_eqF.
  - by left.
  - by rewrite cmod_real normrN ger0_norm ?ltW // invf_lt1 ?ltr0n // ltr1n.
  - by apply/eqP => -[] /eqP; rewrite oner_eq0.
  - by right; rewrite normr1.
  - by rewrite /cmod /= expr0n expr1n add0r sqrtr1.
  - by apply/eqP => -[_] /eqP; rewrite oppr_eq0 oner_eq0.
  - by right; rewrite normrN normr1.
  - by rewrite /cmod /= oppr0 expr0n sqrrN expr1n add0r sqrtr1.
exists ((- half)%:C, [:: 1; 0; 0]), ('i%C, [:: 0; 1; - 'i%C]); rewrite !inE !eqxx /= ?orbT; split=> //.
  by rewrite /negreal /= eqxx oppr_lt0 hp.
by rewrite oner_eq0.
Qed.

(** ** The series 1 0 1 0 1: eigenvalues 1 and -1 *)
Lemma square_one n (J : 'M[R]_n) (i0 : 'I_n) cplx e : J *m J = 1%:M -> J i0 i0 = 0 -> eigen_of J cplx e ->
  cplx = false /\ exists2 j, (j < size e)%N & lam e j = -1.
Proof.
move=> J2 J0 Je; have E := eig_size Je; subst n.
have uV := uV Je; have EJ := JV Je.
set D := diag_mx _ in EJ; set V := vect (size e) e in uV EJ.
have DD : D *m D = 1%:M.
  have := congr1 (mulmx (toC J)) EJ; rewrite mulmxA -map_mxM J2 map_mx1 mul1mx mulmxA EJ -mulmxA.
  by move=> /(congr1 (mulmx (invmx V))); rewrite mulVmx // mulKmx.
have sq (j : 'I_(size e)) : lam e j = 1 \/ lam e j = -1.
  have /matrixP/(_ j j) := DD; rewrite mulmx_diag !mxE eqxx !mulr1n => /eqP.
  by rewrite -expr2 sqrf_eq1 => /orP[] /eqP; [left | right].
split.
  rewrite (eig_type Je); apply/negbTE; rewrite negbK; apply/allP => p pe.
  have lt : (index p e < size e)%N by rewrite index_mem.
  have := sq (Ordinal lt); rewrite /lam /= nth_index // => -[] ->; by rewrite /= ?oppr0.
case: (pickP (fun j : 'I_(size e) => lam e j == -1)) => [j /eqP h|no]; first by exists j.
have D1 : D = 1%:M.
  apply/matrixP => i j; rewrite !mxE; case: eqP => // _; rewrite !mulr1n.
  by case: (sq i) => // h; have := no i; rewrite h eqxx.
move: EJ; rewrite D1 mulmx1 => /(congr1 (mulmx^~ (invmx V))); rewrite /= mulmxK // mulmxV // => /matrixP/(_ i0 i0).
by rewrite [LHS]mxE [RHS]mxE J0 eqxx => -[] /eqP; rewrite eq_sym oner_eq0.
Qed.

Lemma two_by_two (J : 'M[R]_2) : J 0 0 = 0 -> (J *m J) 0 0 = 1 -> (J *m (J *m J)) 0 0 = 0 -> J *m J = 1%:M.
Proof.
move=> J00 p2 p3.
have o1 : lift ord0 ord0 = 1 :> 'I_2 by apply: val_inj.
have e a b : (J *m J) a b = J a 0 * J 0 b + J a 1 * J 1 b by rewrite mxE !big_ord_recl big_ord0 addr0 o1.
have e3 : (J *m (J *m J)) 0 0 = J 0 0 * (J *m J) 0 0 + J 0 1 * (J *m J) 1 0.
  by rewrite mxE !big_ord_recl big_ord0 addr0 o1.
have bc : J 0 1 * J 1 0 = 1 by rewrite -[RHS]p2 e J00 mul0r add0r.
have d0 : J 1 1 = 0.
  by have := p3; rewrite e3 (e 1 0) J00 !(mul0r, mulr0, add0r) mulrCA bc mulr1.
have two (i : 'I_2) : i = 0 \/ i = 1 by case: i => [[|[|i]]] // h; [left | right]; apply: val_inj.
apply/matrixP => i j; rewrite e [RHS]mxE.
case: (two i) => ->; case: (two j) => ->; rewrite ?J00 ?d0 ?bc ?mul0r ?mulr0 ?add0r ?addr0 //.
by rewrite mulrC bc.
Qed.

Lemma alternating (lg : C -> C) tol eps dt remove : 0 < tol ->
  exists U s Vh, hsvd (hankel (alt R) (half_len (alt R))) U s Vh /\
  forall (svd : forall n, 'M[R]_n.+1 -> 'M[R]_n.+1 * seq R * 'M[R]_n.+1) (eig : forall n, 'M[R]_n -> bool * seq (eigen R)),
  svd _ (hankel (alt R) (half_len (alt R))) = (U, s, Vh) ->
  (forall J : {r : nat & 'M[R]_r}, get_jacobi eps (y := alt R) U s Vh (Some half) None = Ok J ->
     eigen_of (projT2 J) (eig _ (projT2 J)).1 (eig _ (projT2 J)).2) ->
  fit_serie lg tol eps svd eig (alt R) dt (Some half) None remove = Err Singular.
Proof.
move=> t0; exists (altU R), [:: 2%:R; 1; 0], (altU R)^T; split=> [|svd eig Es He]; first exact: alt_hsvd.
have Ey : [seq x / (alt R)`_0 | x <- alt R] = alt R by rewrite /= !divr1.
rewrite /fit_serie Ey Es /= oner_eq0.
have t1 : 0 < half <= `|(alt R)`_0|.
  by rewrite /= normr1 invr_gt0 ltr0n /= invf_le1 ?ltr0n // ler1n.
have z k : (2 <= k)%N -> ([:: 2%:R; 1; 0] : seq R)`_k = 0 by case: k => [|[|[|k]]] //= _; rewrite nth_nil.
have rk : size (alt_dlu R) = \rank (hankel (alt R) (half_len (alt R))) by exact: esym (alt_rank R).
have [J [EJ pw]] := reproduces (isT : (0 < size (alt R))%N) (alt_hsvd R) (alt_keep eps) t1 z (alt_ldl eps) rk (@alt_top R).
rewrite EJ bindOk /=; have Je := He _ EJ; rewrite /= in Je.
change 'M[R]_2 in J.
have p k : (k <= 4)%N -> iter k (mulmx J) 1%:M 0 0 = (alt R)`_k by move=> lk; rewrite (pw k 0 lk erefl) divr1.
have J00 : J 0 0 = 0 by have := p 1%N isT; rewrite /= mulmx1.
have J2 : J *m J = 1%:M.
  have p2 := p 2%N isT; have p3 := p 3%N isT; rewrite /= mulmx1 in p2 p3.
  exact: two_by_two J00 p2 p3.
have [c0 [j lj ej]] := square_one J2 J00 Je.
move: c0 lj ej; case: (eig _ J) => c e /= -> lj ej.
set pj := nth (0, [::]) e j; have pe : pj \in e by exact: mem_nth.
have pk : pj \in kept remove e.
  rewrite /kept; case: remove => //; rewrite mem_filter pe andbT -/(lam e j) ej.
  by rewrite (_ : -1 = (-1)%:C) ?cmod_real ?normrN ?normr1 // rmorphN1.
have ik : (index pj (kept remove e) < size (kept remove e))%N by rewrite index_mem.
rewrite (real_negative lg dt t0 ik) // /lam nth_index // -/(lam e j) ej.
by rewrite /negreal /= oppr0 eqxx andbT oppr_lt0 ltr01.
Qed.

(** Decompositions of the matrices of size 2 given once. *)
Definition svd_const (U : 'M[R]_2) (s : seq R) n (H : 'M[R]_n.+1) : 'M[R]_n.+1 * seq R * 'M[R]_n.+1 :=
  match eqVneq n 1%N with
  | EqNotNeq E => let f (X : 'M[R]_2) := castmx (congr1 S (esym E), congr1 S (esym E)) X in (f U, s, f U^T)
  | NeqNotEq _ => (H, [::], H)
  end.

Lemma svd_constE U s (H : 'M[R]_2) : svd_const U s H = (U, s, U^T).
Proof. by rewrite /svd_const; case: eqVneq => // E; rewrite (eq_axiomK E) !castmx_id. Qed.

(** ** Geometric series 1, q, q^2 *)
Section Geo.
Variables a b c : R.
Hypotheses (a0 : 0 < a) (b0 : 0 < b) (c0 : 0 < c) (pyth : a ^+ 2 + b ^+ 2 = c ^+ 2).
Local Notation q := (b / a).

Definition geo : seq R := [:: 1; q; q ^+ 2].
Definition geoU : 'M[R]_2 := \matrix_(i, j)
  nth 0 (nth [::] [:: [:: a / c; b / c]; [:: b / c; - (a / c)]] i) j.
Definition geos : seq R := [:: (c / a) ^+ 2; 0].

Let na : a * a^-1 = 1. Proof. by rewrite divff // gt_eqF. Qed.
Let nc : c * c^-1 = 1. Proof. by rewrite divff // gt_eqF. Qed.
Let sq : a * c^-1 * (a * c^-1) + b * c^-1 * (b * c^-1) = 1.
Proof.
transitivity ((a ^+ 2 + b ^+ 2) * (c^-1 * c^-1)); first by rewrite !expr2; rng.
by rewrite pyth expr2; transitivity ((c * c^-1) * (c * c^-1)); [rng | rewrite nc mulr1].
Qed.

Lemma geo_hsvd : hsvd (hankel geo (half_len geo)) geoU geos geoU^T.
Proof.
split=> //.
- apply/matrixP => i j; rewrite !mxE !big_ord_recl big_ord0 !mxE /= addr0.
  case: i => [[|[|i]]] //= ?; case: j => [[|[|j]]] //= ?.
  + by rng.
  + by rng.
  + by rewrite mulrNN addrC.
- by rewrite /= andbT sqr_ge0.
- by case=> [|[|[|i]]] //=; rewrite ?sqr_ge0 ?lexx.
exists (fun=> 1) => [k j|i j]; first by rewrite mxE mul1r.
rewrite hankelE // !big_ord_recl big_ord0 !mxE /= addr0 expr2.
have cc x y : (x * c^-1) * (c * a^-1 * (c * a^-1)) * (y * c^-1) = (x * a^-1) * (y * a^-1).
  by transitivity ((c * c^-1) * (c * c^-1) * ((x * a^-1) * (y * a^-1))); [rng | rewrite nc !mul1r].
case: i => [[|[|i]]] //= ?; case: j => [[|[|j]]] //= ?; rewrite !mulr0 !mul0r addr0 cc ?na ?mul1r ?mulr1 //.
Qed.

Lemma geo_keep eps : keep eps (half_len geo) geos (Some half) None = Ok (half, 1%N).
Proof.
have h : half < (c / a) ^+ 2.
  have h1 : half < 1 by rewrite invf_lt1 ?ltr0n // ltr1n.
  apply: lt_le_trans h1 _; rewrite expr_div_n -pyth mulrDl divff ?expf_neq0 ?gt_eqF // ler_addl.
  by rewrite divr_ge0 // sqr_ge0.
by rewrite /keep /= h ltNge invr_ge0 ler0n.
Qed.

Definition geo_dlu : seq 'rV[R]_2 := [:: (1 / Num.sqrt 1) *: delta_mx 0 0].

Lemma geo_ldl eps : ldl_hankel eps (y := geo) geoU geos geoU^T (Some half) None
  = Ok (geo_dlu, [:: 1], hankel geo 1).
Proof.
have EH : filtered (n := 1) geoU geos geoU^T 1 = hankel geo 1.
  by apply: (filtered_full geo_hsvd); case=> [|[|k]] //= _; rewrite nth_nil.
have h : half <= 1 by rewrite invf_le1 ?ler1n ?ltr0n.
have Hd i j : hankel geo 1 i j = geo`_(i + j) by rewrite hankelE.
rewrite /ldl_hankel geo_keep /=; change (half_len geo) with 1%N; rewrite EH /ldl_rows.
rewrite !enum_ordS /= phi_delta Hd normr1 h /=.
by rewrite oner_eq0 /= /mkseq /= normr1 sgr1.
Qed.

Lemma geo_rank : size geo_dlu = \rank (hankel geo (half_len geo)).
Proof.
have Hd i j : hankel geo 1 i j = geo`_(i + j) by rewrite hankelE.
apply/esym/eqP; rewrite eqn_leq; apply/andP; split.
  pose X : 'cV[R]_2 := \col_i geo`_i.
  have -> : hankel geo (half_len geo) = X *m X^T.
    apply/matrixP => i j; rewrite Hd !mxE big_ord1 !mxE.
    by case: i => [[|[|i]]] //= ?; case: j => [[|[|j]]] //= ?; rewrite ?mulr1 ?mul1r.
  exact: leq_trans (mxrankM_maxl _ _) (rank_leq_col _).
rewrite lt0n mxrank_eq0; apply/eqP => /matrixP/(_ 0 0); rewrite Hd mxE /= => /eqP.
by rewrite oner_eq0.
Qed.

(** Eigenvectors of a diagonal matrix. *)
Definition diag_eig n (J : 'M[R]_n) : bool * seq (eigen R) :=
  (false, [seq ((J i i)%:C, [seq (i == j)%:R | j <- enum 'I_n]) | i <- enum 'I_n]).

Lemma geo_z k : (1 <= k)%N -> geos`_k = 0.
Proof. by case: k => [|[|k]] //= _; rewrite nth_nil. Qed.

Lemma geo_top j : (j < size geo_dlu)%N -> geo_dlu`_j 0 ord_max = 0.
Proof. by case: j => // _; rewrite !mxE /= mulr0. Qed.

Lemma geo_jacobi eps : exists J : 'M[R]_(size geo_dlu),
  get_jacobi eps (y := geo) geoU geos geoU^T (Some half) None = Ok (existT (fun r => 'M[R]_r) _ J) /\ J 0 0 = q.
Proof.
have t1 : 0 < half <= `|geo`_0|.
  by rewrite /= normr1 invr_gt0 ltr0n /= invf_le1 ?ltr0n // ler1n.
have [J [EJ pw]] := reproduces (isT : (0 < size geo)%N) geo_hsvd (geo_keep eps) t1 geo_z (geo_ldl eps) geo_rank geo_top.
by exists J; split=> //; have := pw 1%N 0 isT erefl; rewrite /mpow /= mulmx1 divr1.
Qed.

Lemma geo_J eps (J : 'M[R]_(size geo_dlu)) :
  get_jacobi eps (y := geo) geoU geos geoU^T (Some half) None = Ok (existT _ _ J) -> J 0 0 = q.
Proof.
move=> EJ; have [J' [EJ' J1]] := geo_jacobi eps.
have h : Ok (existT (fun r => 'M[R]_r) (size geo_dlu) J') = Ok (existT _ _ J) by rewrite -EJ' EJ.
have -> // : J = J' by case: h => /eqP; rewrite eq_Tagged => /eqP /= ->.
Qed.

Lemma geo_qp : 0 < q. Proof. exact: divr_gt0. Qed.

Lemma eig_one (J : 'M[R]_1) : J 0 0 = q ->
  (diag_eig J).2 = [:: (q%:C, [:: 1])] /\ eigen_of J false [:: (q%:C, [:: 1])].
Proof.
move=> J1; split; first by rewrite /diag_eig /= !enum_ordS /= enum_ord0 /= J1.
split; rewrite //.
- by rewrite unitmxE det_mx11 mxE unitr1.
- by move=> i j; rewrite !ord1 big_ord_recl big_ord0 addr0 /= J1 !mulr1.
- by move=> i j; rewrite !ord1.
by rewrite /= eqxx.
Qed.

Lemma eig_one_nz p : p \in [:: (q%:C, [:: 1 : C])] -> p.1 != 0.
Proof. by rewrite inE => /eqP -> /=; apply/eqP => -[] /eqP; rewrite gt_eqF // geo_qp. Qed.

Lemma eig_one_neg p : p \in [:: (q%:C, [:: 1 : C])] -> ~~ negreal p.1.
Proof. by rewrite inE => /eqP ->; rewrite /negreal /= ltNge ltW // geo_qp. Qed.

Lemma geo_eig eps tol (J : 'M[R]_(size geo_dlu)) : b <= a ->
  get_jacobi eps (y := geo) geoU geos geoU^T (Some half) None = Ok (existT _ _ J) ->
  let e := (diag_eig J).2 in
  [/\ eigen_of J (diag_eig J).1 e,
      forall p, p \in e -> [/\ p.1 != 0, Im p.1 = 0 \/ tol <= `|Im p.1| & cmod p.1 <= 1]
    & forall p, p \in e -> negreal p.1 -> exists2 p', p' \in e & Im p'.1 != 0].
Proof.
move=> ba EJ e; have [Ee Je] := eig_one (geo_J EJ); rewrite /e Ee; split=> // p pe.
  split; [exact: eig_one_nz | |]; move: pe; rewrite inE => /eqP -> /=; first by left.
  by rewrite cmod_real (ger0_norm (ltW geo_qp)) ler_pdivr_mulr // mul1r.
by move/negP: (eig_one_neg pe).
Qed.

(** The fitted series goes on as the geometric one, or nothing is left of it. *)
Lemma geo_fit (ex lg : C -> C) tol eps (expm : forall m, 'M[R]_m -> 'M[R]_m) dt
    (svd : forall n, 'M[R]_n.+1 -> 'M[R]_n.+1 * seq R * 'M[R]_n.+1) :
  exp_log ex lg -> is_expm ex expm -> 0 < tol -> dt != 0 -> b <= a ->
  svd _ (hankel geo (half_len geo)) = (geoU, geos, geoU^T) ->
  exists A, fit_serie lg tol eps svd diag_eig geo dt (Some half) None true = Ok (1, A) /\
    forall ks, size ks != 1%N -> series_eval expm [seq k%:R * dt | k <- ks] 1 A = Ok [seq q ^+ k | k <- ks].
Proof.
move=> EL EM t0 dt0 ba Es.
have Ey : [seq x / geo`_0 | x <- geo] = geo by rewrite /= !divr1.
rewrite /fit_serie Ey Es /= oner_eq0; have [J [EJ J1]] := geo_jacobi eps; rewrite EJ bindOk.
have [Ee Je] := eig_one J1; rewrite -[X in clean _ _ _ X]/((diag_eig J).2) Ee.
have [|p /eig_one_neg/negP//|A [EA ev]] := powers (remove := true) EL EM Je t0 dt0.
  move=> p pe; split; [exact: eig_one_nz | |]; move: pe; rewrite inE => /eqP -> /=; first by left.
  by move=> _; rewrite cmod_real (ger0_norm (ltW geo_qp)) ler_pdivr_mulr // mul1r.
exists A; rewrite EA; split=> // ks sk; rewrite (ev _ _ 0) //; congr Ok; apply: eq_map => k.
rewrite mul1r; elim: k => [|k IH]; first by rewrite /= mxE.
by rewrite iterS mxE big_ord1 IH J1 exprS.
Qed.

Lemma geo_removed (lg : C -> C) tol eps (expm : forall m, 'M[R]_m -> 'M[R]_m) dt
    (svd : forall n, 'M[R]_n.+1 -> 'M[R]_n.+1 * seq R * 'M[R]_n.+1) :
  dt != 0 -> a < b -> svd _ (hankel geo (half_len geo)) = (geoU, geos, geoU^T) ->
  exists A, fit_serie lg tol eps svd diag_eig geo dt (Some half) None true = Ok (1, A) /\
    forall t0 t1 ts, series_eval expm [:: t0, t1 & ts] 1 A = Err OutOfBounds.
Proof.
move=> dt0 ab Es.
have Ey : [seq x / geo`_0 | x <- geo] = geo by rewrite /= !divr1.
rewrite /fit_serie Ey Es /= oner_eq0; have [J [EJ J1]] := geo_jacobi eps; rewrite EJ bindOk.
have [Ee Je] := eig_one J1; rewrite -[X in clean _ _ _ X]/((diag_eig J).2) Ee.
have h p : p \in [:: (q%:C, [:: 1 : C])] -> 1 < cmod p.1.
  by rewrite inE => /eqP ->; rewrite cmod_real (ger0_norm (ltW geo_qp)) ltr_pdivl_mulr // mul1r.
have [A [EA _]] := all_removed lg tol expm false 0 0 [::] 1 dt0 h.
exists A; rewrite EA; split=> // t0 t1 ts.
by have [A' [EA' E]] := all_removed lg tol expm false t0 t1 ts 1 dt0 h; move: E; rewrite EA in EA'; case: EA' => ->.
Qed.

End Geo.

End Witness.
