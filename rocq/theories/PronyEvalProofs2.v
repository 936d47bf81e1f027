(** * Proofs for the evaluation of Prony series: the cleaned logarithm. *)
From mathcomp Require Import all_ssreflect all_algebra.
From mathcomp Require Import complex.
From Verif Require Import Base EstimatorProofs Prony PronyEval PronyEvalSpec PronyEvalProofs.
Set Implicit Arguments.
Unset Strict Implicit.
Unset Printing Implicit Defensive.
Import Order.TTheory GRing.Theory Num.Theory.
Local Open Scope ring_scope.
Local Open Scope complex_scope.

Lemma In_mem (T : eqType) (x : T) (s : seq T) : List.In x s -> x \in s.
Proof. by elim: s => //= a s IH [->|/IH h]; rewrite inE ?eqxx // h orbT. Qed.

Local Lemma bindOk (A B : Type) (a : A) (f : A -> res B) : bind (Ok a) f = f a.
Proof. by []. Qed.

Section Clean.
Variable R : rcfType.
Local Notation C := R[i].
Local Notation Re := (@complex.Re R).
Local Notation Im := (@complex.Im R).
Local Notation toC := (map_mx (real_complex R)).
Variables (ex lg : C -> C) (tol : R).
Hypothesis EL : exp_log ex lg.

Lemma ex0 : ex 0 = 1.
Proof. by have := ex_add EL (lg 1) 0; rewrite addr0 (ex_lg EL) ?oner_neq0 // mul1r. Qed.

Lemma exMn x k : ex (x *+ k) = ex x ^+ k.
Proof. by elim: k => [|k IH]; rewrite ?mulr0n ?ex0 ?expr0 // mulrS (ex_add EL) IH exprS. Qed.

Lemma real_complexE (z : C) : Im z = 0 -> z = (Re z)%:C.
Proof. by case: z => a b /= ->. Qed.

Lemma lg_neg z : negreal z -> Im (lg z) != 0.
Proof.
case/andP=> rz iz; apply/eqP => /real_complexE E.
have nz : z != 0 by apply: contraTneq rz => ->; rewrite ltxx.
have := ex_lg EL nz; set x := Re (lg z) in E; rewrite E.
have -> : x%:C = (x / 2%:R)%:C + (x / 2%:R)%:C by rewrite -rmorphD /= -splitr.
set w := (x / 2%:R)%:C; rewrite (ex_add EL) => Ez.
have := ex_conj EL w; rewrite /w conjc_real -/w; case: (ex w) Ez => a b Ez [/eqP].
rewrite -subr_eq0 opprK -mulr2n mulrn_eq0 /= => /eqP b0.
by move: rz; rewrite -Ez b0 /= mulr0 subr0 ltNge -expr2 sqr_ge0.
Qed.

Lemma dups_lt (e : seq (eigen R)) (r : 'I_(size (dups tol e))) : (nth 0%N (dups tol e) r < size e)%N.
Proof. by have := mem_nth 0%N (ltn_ord r); rewrite mem_filter mem_iota add0n => /and3P[]. Qed.

Definition dix (e : seq (eigen R)) (r : 'I_(size (dups tol e))) : 'I_(size e) := Ordinal (dups_lt r).

Lemma dix_inj e : injective (@dix e).
Proof.
move=> r q /(congr1 val) /= E; apply: val_inj; apply/eqP.
by rewrite -(nth_uniq 0%N (ltn_ord r) (ltn_ord q)) ?E // filter_uniq ?iota_uniq.
Qed.

Lemma dixP e (j : 'I_(size e)) : dupl tol (lam e j) <-> exists r : 'I_(size (dups tol e)), j = dix r.
Proof.
split=> [h|[r ->]].
  have jd : val j \in dups tol e by rewrite mem_filter h mem_iota add0n /=.
  have lt : (index (val j) (dups tol e) < size (dups tol e))%N by rewrite index_mem.
  by exists (Ordinal lt); apply: val_inj; rewrite /= nth_index.
by have := mem_nth 0%N (ltn_ord r); rewrite mem_filter => /andP[].
Qed.

Variables (cplx : bool) (dt : R).

Definition sgv (e : seq (eigen R)) : 'rV[C]_(size (dups tol e)) := \row_r ('i%C * sgn lg cplx dt (lam e (dix r))).

Lemma new_vectE e : new_vect lg tol cplx dt e = dbl (vect (size e) e) (@dix e) (sgv e).
Proof.
rewrite /new_vect /dbl; congr block_mx; apply/matrixP.
- move=> i r; rewrite !mxE (bigD1 (dix r)) //= !mxE eqxx mulr1 big1 ?addr0 //.
  by move=> k ne; rewrite !mxE (negPf ne) mulr0.
- move=> r j; rewrite mul_diag_mx !mxE -val_eqE /=.
  by case: eqP => [->|_]; rewrite ?mulr1 ?mulr0.
move=> r q; rewrite !mxE; case: eqP => [->|_]; rewrite ?mulr1n ?mulr0n ?oppr0 // mulNr.
by [].
Qed.

(** ** Nothing removed, no zero, no negative number in a real array *)
Variables (e : seq (eigen R)) (J : 'M[R]_(size e)).
Hypothesis Jeig : eigen_of J cplx e.
Hypothesis tol0 : 0 < tol.
Hypothesis dt0 : dt != 0.
Hypothesis nz : forall j, (j < size e)%N -> lam e j != 0.
Hypothesis far : forall j, (j < size e)%N -> Im (lam e j) = 0 \/ tol <= `|Im (lam e j)|.
Hypothesis typ : forall j, (j < size e)%N -> negreal (lam e j) -> cplx.

Lemma duplE j : (j < size e)%N -> dupl tol (lam e j) = negreal (lam e j).
Proof.
move=> lj; rewrite /dupl /neg /negreal; case: (far lj) => [->|ge].
  by rewrite normr0 tol0 ltxx andbF orbF eqxx andbT.
rewrite ltNge ge /=; apply/esym/negbTE; rewrite negb_and orbC; apply/orP; left.
by apply: contraTneq ge => ->; rewrite normr0 -ltNge.
Qed.

Local Notation V := (vect (size e) e).
Local Notation W := (dbl V (@dix e) (sgv e)).
Let lamb : 'rV[C]_(size e) := \row_j lam e j.
Let l : 'rV[C]_(size e) := \row_j (lg (lam e j) / dt%:C).
Let L : 'rV[C]_(size e + size (dups tol e)) := row_mx l (\row_r (l 0 (dix r))^*).

Lemma uV : V \in unitmx. Proof. exact: eig_unit Jeig. Qed.

Lemma JV : toC J *m V = V *m diag_mx lamb.
Proof.
apply/matrixP => i j; rewrite mul_mx_diag [RHS]mxE mxE [V i j]mxE [lamb _ _]mxE mulrC -(eig_vect Jeig).
by apply: eq_bigr => k _; rewrite [toC J i k]mxE [V k j]mxE.
Qed.

Lemma dcol (j : 'I_(size e)) : negreal (lamb 0 j) <-> exists r : 'I_(size (dups tol e)), j = dix r.
Proof. by rewrite mxE -duplE //; exact: dixP. Qed.

Lemma dneg r : negreal (lam e (@dix e r)).
Proof. by have := (dcol (dix r)).2 (ex_intro _ r erefl); rewrite mxE. Qed.

Lemma Vreal i r : (V i (dix r))^* = V i (dix r).
Proof.
rewrite mxE; have /andP[_ /eqP z] := dneg r.
by rewrite /vec (real_complexE (eig_real Jeig i z)) conjc_real.
Qed.

Lemma dtC : dt%:C != 0.
Proof. by apply: contra_neq dt0 => -[]. Qed.

Lemma sgv0 r : sgv e 0 r != 0.
Proof.
rewrite mxE mulf_neq0 ?neq0Ci // /sgn (typ (ltn_ord _) (dneg r)).
have : Im (lg (lam e (dix r)) / dt%:C) != 0.
  have -> : lg (lam e (dix r)) / dt%:C = lg (lam e (dix r)) * (dt^-1)%:C by rewrite fmorphV.
  have := lg_neg (dneg r); case: (lg _) => a b /= b0.
  by rewrite mulr0 add0r mulf_neq0 // invr_neq0.
by rewrite -sgr_eq0 => h; apply: contra_neq h => -[].
Qed.

Lemma sgvJ r : (sgv e 0 r)^* = - sgv e 0 r.
Proof.
rewrite mxE rmorphM /= /sgn; case: cplx; last by rewrite !mulr0 conjc0 mulr0 oppr0.
by rewrite conjc_real -mulNr; congr (_ * _); rewrite /= ?oppr0; apply/eqP; rewrite eq_complex /= oppr0 !eqxx.
Qed.

Lemma conj_div (x : C) : (x / dt%:C)^* = x^* / dt%:C.
Proof.
have -> : dt%:C^-1 = (dt^-1)%:C by rewrite fmorphV.
by rewrite -[(dt^-1)%:C in RHS]conjc_real -(rmorphM (conjc_rmorphism R)).
Qed.

Lemma lJ i j : ~~ negreal (lamb 0 j) -> lamb 0 i = (lamb 0 j)^* -> l 0 i = (l 0 j)^*.
Proof.
by rewrite !mxE => nj ->; rewrite (lg_conj EL (nz (ltn_ord j)) nj) conj_div.
Qed.

Lemma W_unit : W \in unitmx.
Proof. by apply: dbl_unit; [rewrite pnatr_eq0 | exact: uV | exact: dix_inj | exact: sgv0]. Qed.

Lemma clean_ok : exists A : 'M[R]_(size e + size (dups tol e)),
  clean lg tol cplx e dt false = Ok (existT _ _ A) /\ toC A = W *m diag_mx L *m invmx W.
Proof.
exists (map_mx Re (W *m diag_mx L *m invmx W)); split; last first.
  exact: (log_real uV (@dix_inj e) sgv0 JV dcol Vreal sgvJ lJ).
rewrite /clean /kept new_vectE W_unit (negPf dt0) /=.
pose g (p : eigen R) := lg p.1 / dt%:C.
have -> : mapM (fun p : eigen R => let! z := nplog lg cplx p.1 in Ok (z / dt%:C)) e = Ok [seq g p | p <- e].
  apply: mapM_ok => p /In_mem pe; have lt : (index p e < size e)%N by rewrite index_mem.
  have E : p.1 = lam e (index p e) by rewrite /lam nth_index.
  rewrite /nplog /g E (negPf (nz lt)); case: ifP => // /andP[nc rz].
  have := typ lt; rewrite (negPf nc) /negreal rz /= => h.
  have := eig_type Jeig; rewrite (negPf nc) => /esym/negbFE/allP/(_ p pe); rewrite E => z.
  by have := h z.
have gl (j : 'I_(size e)) : [seq g p | p <- e]`_j = l 0 j by rewrite (nth_map (0, [::])) // mxE.
rewrite bindOk; set X := (X in diag_mx X); suff -> : X = L by [].
apply/rowP => j; rewrite mxE nth_cat size_map.
case: (fintype.splitP j) => [k jk|k jk].
  by rewrite jk gl (_ : j = lshift _ k) ?row_mxEl //; apply: val_inj.
rewrite jk addKn (nth_map 0%N) // (_ : j = rshift _ k) ?row_mxEr ?[RHS]mxE; last exact: val_inj.
by congr (_^*); rewrite -[nth _ _ k]/(val (dix k)) gl.
Qed.

(** ** Exponential of the cleaned logarithm at the sample times *)
Variable expm : forall m, 'M[R]_m -> 'M[R]_m.
Hypothesis EM : is_expm ex expm.

Lemma diag_pow k : V *m diag_mx (\row_j lam e j ^+ k) *m invmx V = toC (iter k (mulmx J) 1%:M).
Proof.
elim: k => [|k IH] /=.
  rewrite map_scalar_mx rmorph1 [X in diag_mx X](_ : _ = const_mx 1).
    by rewrite diag_const_mx mulmx1 mulmxV ?uV.
  by apply/rowP => j; rewrite !mxE expr0.
rewrite map_mxM -IH !mulmxA JV; congr (_ *m _); rewrite -mulmxA mulmx_diag; congr (_ *m diag_mx _).
by apply/rowP => j; rewrite !mxE exprS.
Qed.

Lemma exp_pow (A : 'M[R]_(size e + size (dups tol e))) k :
  toC A = W *m diag_mx L *m invmx W ->
  toC (expm ((k%:R * dt) *: A))
  = block_mx (toC (iter k (mulmx J) 1%:M)) 0 0 (diag_mx (\row_r lam e (@dix e r) ^+ k)).
Proof.
move=> EA; set t := k%:R * dt.
have EtA : toC (t *: A) = W *m diag_mx (t%:C *: L) *m invmx W.
  by rewrite map_mxZ EA linearZ /= -scalemxAr -scalemxAl.
rewrite (EM W_unit EtA).
have p j : ex (t%:C * (lg (lam e j) / dt%:C)) = ex (lg (lam e j)) ^+ k.
  by rewrite -exMn /t rmorphM rmorph_nat -mulrA [dt%:C * _]mulrCA divff ?dtC // mulr1 mulr_natl.
have -> : map_mx ex (t%:C *: L) = row_mx (\row_j lam e j ^+ k) (\row_r (\row_j lam e j ^+ k) 0 (dix r)).
  rewrite scale_row_mx map_row_mx; congr row_mx; apply/rowP => j; rewrite !mxE.
    by rewrite p (ex_lg EL) // nz.
  have -> : t%:C * (lg (lam e (dix j)) / dt%:C)^* = (t%:C * (lg (lam e (dix j)) / dt%:C))^*.
    by rewrite -[t%:C in LHS]conjc_real -(rmorphM (conjc_rmorphism R)).
  rewrite (ex_conj EL) p (ex_lg EL) ?nz //.
  have /andP[_ /eqP z] := dneg j.
  by rewrite {1}(real_complexE z) -rmorphX conjc_real rmorphX /= -(real_complexE z).
rewrite (dbl_diag _ uV (@dix_inj e) sgv0) ?pnatr_eq0 // diag_pow; congr block_mx; congr diag_mx.
by apply/rowP => r; rewrite !mxE.
Qed.

Lemma powers_kept : exists A, clean lg tol cplx e dt false = Ok A /\
  forall ks y0 (i0 : 'I_(size e)), val i0 = 0%N -> size ks != 1%N ->
    series_eval expm [seq k%:R * dt | k <- ks] y0 A
    = Ok [seq y0 * iter k (mulmx J) 1%:M i0 i0 | k <- ks].
Proof.
have [A [E EA]] := clean_ok; exists (existT (fun m => 'M[R]_m) _ A); split=> // ks y0 i0 iz sz.
rewrite /series_eval size_map (negPf sz) /=.
have -> : [seq y0 * iter k (mulmx J) 1%:M i0 i0 | k <- ks]
          = [seq y0 * expm (t *: A) (lshift _ i0) (lshift _ i0) | t <- [seq k%:R * dt | k <- ks]].
  rewrite -map_comp; apply: eq_map => k /=; congr (_ * _).
  have /matrixP/(_ (lshift _ i0) (lshift _ i0)) := exp_pow k EA.
  by rewrite block_mxEul !mxE => -[].
apply: mapM_ok => t _; case: insubP => [i _ vi|]; last by rewrite -iz (leq_trans (ltn_ord i0)) // leq_addr.
by congr (Ok (_ * _)); rewrite (_ : i = lshift _ i0) //; apply: val_inj; rewrite /= vi iz.
Qed.

End Clean.
