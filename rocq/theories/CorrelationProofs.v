From mathcomp Require Import all_ssreflect all_algebra.
From mathcomp Require Import complex cyclic separable cyclotomic zify.
From Verif Require Import Base Correlation CorrelationSpec.
Set Implicit Arguments.
Unset Strict Implicit.
Unset Printing Implicit Defensive.
Import GRing.Theory Num.Theory.
Local Open Scope ring_scope.
Local Open Scope complex_scope.

Section DFT.
Variable R : rcfType.
Local Notation C := R[i].

Lemma geom_root (z : C) N : (0 < N)%N -> z ^+ N = 1 ->
  \sum_(k < N) z ^+ k = if z == 1 then N%:R else 0.
Proof.
move=> N0 zN; case: eqP => [->|/eqP nz].
  under eq_bigr do rewrite expr1n.
  by rewrite sumr_const card_ord.
have /eqP : (z - 1) * (\sum_(k < N) z ^+ k) = 0 by rewrite -subrX1 zN subrr.
by rewrite mulf_eq0 subr_eq0 (negPf nz) => /eqP.
Qed.

Lemma root_conj (z : C) N : (0 < N)%N -> z ^+ N = 1 -> conjc z = z^-1.
Proof.
move=> N0 zN.
have n1 : `|z| = 1.
  apply/eqP; rewrite -(pexpr_eq1 N0) ?normr_ge0 //.
  by rewrite -normrX zN normr1.
by rewrite invC_norm n1 expr1n invr1 mul1r.
Qed.

Variables (N : nat) (z : C).
Hypothesis zP : N.-primitive_root z.

Lemma conj_real (x : R) : conjc (x%:C) = x%:C.
Proof. by rewrite /= oppr0. Qed.

(** Circular correlation theorem. *)
Lemma circular (a b : nat -> R) (n : nat) :
  (N%:R^-1 * \sum_(k < N)
     ((conjc (\sum_(t < N) (a t)%:C * z ^+ (k * t)) * (\sum_(s < N) (b s)%:C * z ^+ (k * s)))
       * z ^- (k * n)))%R
  = \sum_(t < N) \sum_(s < N | (s == t + n %[mod N])) (a t * b s)%:C.
Proof.
have N0 := prim_order_gt0 zP; have zN := prim_expr_order zP.
have zn0 : z != 0 by apply: contra_eq_neq zN => ->; rewrite expr0n gtn_eqF // eq_sym oner_eq0.
have cz k : conjc (z ^+ k) = z ^- k.
  by rewrite [conjc _](rmorphX (conjc_rmorphism _)) /= (root_conj N0 zN) exprVn.
transitivity (N%:R^-1 * \sum_(t < N) \sum_(s < N) \sum_(k < N)
   ((a t * b s)%:C * (z ^+ s / z ^+ (t + n)) ^+ k)).
  congr (_ * _); rewrite [RHS]exchange_big /=.
  under [RHS]eq_bigr do rewrite exchange_big /=.
  rewrite [RHS]exchange_big /=; apply: eq_bigr => k _.
  rewrite [conjc _](raddf_sum (conjc_additive _)) mulr_suml mulr_suml [RHS]exchange_big /=.
  apply: eq_bigr => t _; rewrite mulr_sumr mulr_suml; apply: eq_bigr => s _.
  rewrite [conjc _](rmorphM (conjc_rmorphism _)) /= cz oppr0.
  rewrite [(a t * b s)%:C]rmorphM /=.
  rewrite expr_div_n -!exprM mulnC [((t + n) * k)%N]mulnC mulnDr exprD invfM [(k * s)%N]mulnC.
  rewrite -!mulrA; congr (_ * _); rewrite mulrCA; congr (_ * _).
  by rewrite mulrCA [(t * k)%N]mulnC.
rewrite mulr_sumr; apply: eq_bigr => t _; rewrite mulr_sumr [RHS]big_mkcond /=.
apply: eq_bigr => s _; rewrite -mulr_sumr geom_root //; last first.
  by rewrite expr_div_n -!exprM ![(_ * N)%N]mulnC !exprM zN !expr1n divr1.
have -> : (z ^+ s / z ^+ (t + n) == 1) = (s == t + n %[mod N]).
  by rewrite -(eq_prim_root_expr zP) -subr_eq0 -[X in _ - X](@divff _ (z ^+ (t + n))) ?expf_neq0 // -mulrBl mulf_eq0 invr_eq0 expf_eq0 (negPf zn0) andbF orbF subr_eq0.

case: ifP => _; last by rewrite !mulr0.
rewrite mulrCA mulVf ?mulr1 //.
by rewrite pnatr_eq0 -lt0n.
Qed.

(** Zero padding removes the wrap-around. *)
Lemma padded (T : nat) (a b : nat -> R) n :
  (T.*2 <= N)%N -> (n < T)%N ->
  (forall t, (T <= t)%N -> a t = 0) -> (forall t, (T <= t)%N -> b t = 0) ->
  \sum_(t < N) \sum_(s < N | (s == t + n %[mod N])) (a t * b s)%:C
  = (\sum_(t < T - n) a t * b (t + n)%N)%:C.
Proof.
move=> TN nT a0 b0.
have inner (t : 'I_N) : \sum_(s < N | (s == t + n %[mod N])) (a t * b s)%:C
   = (a t * b (t + n)%N)%:C.
  case: (leqP T t) => lt.
    by rewrite a0 // mul0r big1 // => s _; rewrite mul0r.
  have tn : (t + n < N)%N by rewrite -mul2n in TN; lia.
  rewrite (big_pred1 (Ordinal tn)) // => s /=.
  by rewrite eqE /= !modn_small.
rewrite (eq_bigr (fun t : 'I_N => (a t * b (t + n)%N)%:C)) // -raddf_sum /=.
congr (_%:C).
rewrite -(big_mkord xpredT (fun t => a t * b (t + n)%N)).
rewrite (@big_cat_nat _ _ _ (T - n)) //=; last by rewrite -mul2n in TN; lia.
rewrite big_mkord [X in _ + X]big1_seq ?addr0 // => t.
by rewrite mem_index_iota => /andP[_ rt]; rewrite b0 ?mulr0 //; lia.
Qed.

End DFT.

Lemma Re_realC (R : rcfType) (x : R) : complex.Re x%:C = x. Proof. by []. Qed.

Section Corr.
Variables (R : rcfType) (w : nat -> R[i]).
Hypothesis wP : forall k, (2 ^ k.+1)%N.-primitive_root (w (2 ^ k.+1)).

Lemma nth_toC (a : seq R) t : (toC a)`_t = (a`_t)%:C.
Proof.
rewrite /toC; case: (ltnP t (size a)) => lt; first by rewrite (nth_map 0).
by rewrite !nth_default // size_map.
Qed.

Lemma nth_fft N (a : seq R) k : (k < N)%N ->
  (fft w N (toC a))`_k = \sum_(t < N) (a`_t)%:C * w N ^+ (k * t).
Proof.
by move=> kN; rewrite nth_mkseq //; apply: eq_bigr => t _; rewrite nth_toC.
Qed.

Lemma size_fft N a : size (fft w N a) = N. Proof. by rewrite size_mkseq. Qed.

Lemma spectrum_lag N T (a b : seq R) n :
  N.-primitive_root (w N) -> (T.*2 <= N)%N -> (n < T)%N ->
  (size a <= T)%N -> (size b <= T)%N ->
  (ifft w [seq conjc p.1 * p.2 | p <- zip (fft w N (toC a)) (fft w N (toC b))])`_n
  = (\sum_(t < T - n) a`_t * b`_(t + n))%:C.
Proof.
move=> zP TN nT sa sb; rewrite /ifft.
have -> : size [seq conjc p.1 * p.2 | p <- zip (fft w N (toC a)) (fft w N (toC b))] = N.
  by rewrite size_map size_zip !size_fft minnn.
rewrite nth_mkseq; last by rewrite -mul2n in TN; lia.
rewrite -(padded zP TN nT (a := fun t => a`_t) (b := fun t => b`_t)); last first.
- by move=> t le; rewrite nth_default //; apply: leq_trans le.
- by move=> t le; rewrite nth_default //; apply: leq_trans le.
rewrite -(circular zP); congr (_ * _); apply: eq_bigr => k _; congr (_ * _).
rewrite (nth_map (0, 0)); last by rewrite size_zip !size_fft minnn.
by rewrite nth_zip ?size_fft //= !nth_fft.
Qed.

Lemma pow_pad n : (n.*2 <= 2 ^ (ceil_log2 n + 1))%N.
Proof.
rewrite addn1 expnS mul2n leq_double.
exact: up_logP.
Qed.

Lemma len_truncE T tr : (len_trunc T tr <= T)%N.
Proof. by case: tr => //= n; rewrite geq_minl. Qed.

Lemma normaliseE T L N (a b : seq R) :
  N.-primitive_root (w N) -> (T.*2 <= N)%N -> (L <= T)%N ->
  (size a <= T)%N -> (size b <= T)%N ->
  normalise T L (ifft w [seq conjc p.1 * p.2 | p <- zip (fft w N (toC a)) (fft w N (toC b))])
  = mkseq (corr_estimate T (nth 0 a) (nth 0 b)) L.
Proof.
move=> zP TN LT sa sb; apply: (@eq_from_nth _ 0); rewrite !size_mkseq // => n nL.
rewrite nth_mkseq // (spectrum_lag zP TN (leq_trans nL LT) sa sb) nth_mkseq //.
by rewrite Re_realC /corr_estimate mulrC.
Qed.

Lemma correlation_1DE a b tr :
  (0 < size a)%N -> size b = size a ->
  correlation_1D w a (Some b) tr
  = Ok (mkseq (corr_estimate (size a) (nth 0 a) (nth 0 b)) (len_trunc (size a) tr)).
Proof.
move=> s0 sb; rewrite /correlation_1D s0 sb s0 /=.
set b2 := b ++ _; set db := b2 ++ _.
have sdb : size db = (2 ^ (ceil_log2 (size a) + 1))%N.
  rewrite /db /b2 !(size_cat, size_nseq) sb addn1 expnS mul2n -addnn.
  by rewrite subnKC //; apply: up_logP.
rewrite sdb /conj_mul !size_fft eqxx /=; congr Ok.
have -> : fft w (2 ^ (ceil_log2 (size a) + 1)) (toC db)
        = fft w (2 ^ (ceil_log2 (size a) + 1)) (toC b).
  apply: (@eq_from_nth _ 0); rewrite !size_fft // => k kN.
  rewrite !nth_fft //; apply: eq_bigr => t _; congr (_%:C * _).
  rewrite /db /b2 !nth_cat !nth_nseq !if_same size_cat.
  case: (ltnP t (size b)) => [lt|le]; first by rewrite ltn_addr.
  by rewrite if_same [RHS]nth_default.
by apply: normaliseE; rewrite ?sb ?pow_pad ?len_truncE // addn1; apply: wP.
Qed.

Lemma correlation_1D_auto a tr :
  (0 < size a)%N ->
  correlation_1D w a None tr
  = Ok (mkseq (corr_estimate (size a) (nth 0 a) (nth 0 a)) (len_trunc (size a) tr)).
Proof.
move=> s0; rewrite /correlation_1D s0 /= /conj_mul eqxx /=; congr Ok.
by apply: normaliseE; rewrite ?pow_pad ?len_truncE // addn1; apply: wP.
Qed.

(** Direct estimate. *)
Lemma dot_shift (a b : seq R) T n :
  size a = T -> size b = T -> (n <= T)%N ->
  \sum_(p <- zip (take (T - n) a) (drop n b)) p.1 * p.2 = \sum_(t < T - n) a`_t * b`_(t + n).
Proof.
move=> sa sb nT; rewrite (big_nth (0, 0)) size_zip size_take size_drop sa sb.
rewrite (_ : minn _ _ = (T - n)%N); last by case: ifP; lia.
rewrite big_mkord; apply: eq_bigr => t _; have lt := ltn_ord t.
rewrite nth_zip_cond size_zip size_take size_drop sa sb (_ : minn _ _ = (T - n)%N); last by case: ifP; lia.
by rewrite lt /= nth_take // nth_drop addnC.
Qed.

Lemma fill_loop (V : zmodType) L (f : nat -> V) (body : nat -> seq V -> res (seq V)) v0 :
  (0 < L)%N -> v0 = f 0%N ->
  (forall n r, (0 < n < L)%N -> body n r = wr r n (f n)) ->
  (let! r := wr (nseq L 0) 0 v0 in for_ 1 L body r) = Ok (mkseq f L).
Proof.
move=> L0 -> Hb.
have s0 : (0 < size (nseq L (0%R : V)))%N by rewrite size_nseq.
case: (wr_total (0 : V) (f 0%N) s0) => r0 -> [sz0 H0] /=.
have [||r -> [sz H]] := @for_ind _ (fun k r => size r = L /\ forall i, (i < k)%N -> r`_i = f i) 1 L body r0 L0.
- by rewrite sz0 size_nseq; split=> // -[|i] // _; rewrite H0.
- move=> n r rg [sz H]; rewrite Hb //.
  have sr : (n < size r)%N by lia.
  case: (wr_total (0 : V) (f n) sr) => r' -> [sz' H']; exists r' => //; split; first by rewrite sz'.
  by move=> i li; rewrite H'; case: eqP => [->|ne] //; apply: H; lia.
congr Ok; apply: (@eq_from_nth _ 0); rewrite ?size_mkseq // => i li.
by rewrite H ?nth_mkseq //; lia.
Qed.

Lemma direct_1DE (a b : seq R) tr :
  size b = size a -> (0 < len_trunc (size a) tr)%N ->
  correlation_direct_1D a (Some b) tr
  = Ok (mkseq (corr_estimate (size a) (nth 0 a) (nth 0 b)) (len_trunc (size a) tr)).
Proof.
move=> sb L0; rewrite /correlation_direct_1D /= {1}/dot sb eqxx /=.
apply: fill_loop => //.
  rewrite /corr_estimate subn0 mulrC; congr (_ * _).
  have := @dot_shift a b (size a) 0 erefl sb (leq0n _).
  by rewrite subn0 take_size drop0.
move=> n r rg; have := len_truncE (size a) tr => LT.
rewrite /dot size_takel ?leq_subr // size_drop sb eqxx /=.
by rewrite dot_shift //; [rewrite /corr_estimate mulrC | lia].
Qed.

Lemma row_seqE p T (a : 'M[R]_(p, T)) i : row_seq a i = mkseq (at_time a i) T.
Proof. by []. Qed.

Lemma nth_row_seq p T (a : 'M[R]_(p, T)) i t : (row_seq a i)`_t = at_time a i t.
Proof.
case: (ltnP t T) => lt; first by rewrite nth_mkseq.
by rewrite nth_default ?size_mkseq // /at_time insubF //; apply/negbTE; rewrite -leqNgt.
Qed.

Lemma corr_estimate_rows p q T (a : 'M[R]_(p, T)) (b : 'M[R]_(q, T)) i j n :
  corr_estimate T (nth 0 (row_seq a i)) (nth 0 (row_seq b j)) n
  = corr_estimate T (at_time a i) (at_time b j) n.
Proof. by congr (_ * _); apply: eq_bigr => t _; rewrite !nth_row_seq. Qed.

Lemma correlation_NDE p q T (a : 'M[R]_(p, T)) (b : 'M[R]_(q, T)) tr :
  (0 < T)%N ->
  correlation_ND w a b tr = Ok (mkseq (corr_matrix a b) (len_trunc T tr)).
Proof.
move=> T0; rewrite /correlation_ND T0 /=; congr Ok.
apply: (@eq_from_nth _ 0); rewrite !size_mkseq // => n nL; rewrite !nth_mkseq //.
apply/matrixP => i j; rewrite !mxE /lag_spectrum.
rewrite normaliseE ?size_mkseq ?pow_pad ?len_truncE //; last by rewrite addn1; apply: wP.
by rewrite nth_mkseq // corr_estimate_rows.
Qed.

Lemma direct_lagE p q T (a : 'M[R]_(p, T)) (b : 'M[R]_(q, T)) l i j :
  (l <= T)%N -> direct_lag a b l i j = corr_estimate T (at_time a i) (at_time b j) l.
Proof.
move=> lT; rewrite /direct_lag dot_shift ?size_mkseq // -corr_estimate_rows.
by rewrite /corr_estimate mulrC.
Qed.

Lemma direct_NDE p q T (a : 'M[R]_(p, T)) (b : 'M[R]_(q, T)) tr :
  (0 < len_trunc T tr)%N ->
  correlation_direct_ND a b tr = Ok (mkseq (corr_matrix a b) (len_trunc T tr)).
Proof.
move=> L0; rewrite /correlation_direct_ND; apply: fill_loop => //.
  by apply/matrixP => i j; rewrite !mxE direct_lagE.
move=> n r rg; have := len_truncE T tr => LT.
by congr wr; apply/matrixP => i j; rewrite !mxE direct_lagE //; lia.
Qed.

Lemma correlation_ND_singleE p T (a : 'M[R]_(p, T)) tr :
  (0 < T)%N ->
  correlation_ND_single w a tr = Ok (mkseq (fun n => (corr_matrix a a n)^T) (len_trunc T tr)).
Proof.
move=> T0; rewrite /correlation_ND_single T0 /=; congr Ok.
apply: (@eq_from_nth _ 0); rewrite !size_mkseq // => n nL; rewrite !nth_mkseq //.
apply/matrixP => i j; rewrite !mxE /lag_spectrum.
rewrite normaliseE ?size_mkseq ?pow_pad ?len_truncE //; last by rewrite addn1; apply: wP.
by rewrite nth_mkseq // corr_estimate_rows.
Qed.

Lemma direct_ND_singleE p T (a : 'M[R]_(p, T)) tr :
  (0 < len_trunc T tr)%N ->
  correlation_direct_ND_single a tr
  = Ok (mkseq (fun n => \matrix_(i, j) corr_matrix a a n j j) (len_trunc T tr)).
Proof.
move=> L0; rewrite /correlation_direct_ND_single; apply: fill_loop => //.
  by apply/matrixP => i j; rewrite !mxE direct_lagE.
move=> n r rg; have := len_truncE T tr => LT.
by congr wr; apply/matrixP => i j; rewrite !mxE direct_lagE //; lia.
Qed.

(** With [trunc = 0] the direct estimators raise. *)
Lemma direct_trunc0 (a b : seq R) : size b = size a ->
  correlation_direct_1D a (Some b) (Some 0%N) = Err OutOfBounds.
Proof.
by move=> sb; rewrite /correlation_direct_1D /len_trunc minn0 /= /dot sb eqxx.
Qed.

End Corr.

(** Roots of unity exist, so the theorems are not vacuous. *)
Lemma prim_root_exists (R : rcfType) N : (0 < N)%N -> exists z : R[i], N.-primitive_root z.
Proof.
move=> N0.
have [rs Hrs] := closed_field_poly_normal ('X^N - 1 : {poly R[i]}).
have lc : lead_coef ('X^N - 1 : {poly R[i]}) = 1 by exact: (monicP (monic_Xn_sub_1 _ N0)).
rewrite lc scale1r in Hrs.
have srs : size rs = N.
  by have := size_Xn_sub_1 [ringType of R[i]] N0; rewrite Hrs size_prod_XsubC => -[].
have sep : separable_poly ('X^N - 1 : {poly R[i]}).
  by apply: separable_Xn_sub_1; rewrite pnatr_eq0 -lt0n.
have urs : uniq rs by move: sep; rewrite Hrs separable_prod_XsubC.
have : has N.-primitive_root rs.
  apply: cyclic.has_prim_root => //; last by rewrite srs.
  by apply/allP => x xr; rewrite /root_of_unity Hrs root_prod_XsubC.
by case/hasP=> z _ zP; exists z.
Qed.

(** A family of roots for all power-of-two lengths. *)
Definition root_family (R : rcfType) : nat -> R[i] :=
  fun N => match N with 0 => 0 | N'.+1 => xchoose (prim_root_exists R (ltn0Sn N')) end.

Lemma root_familyP (R : rcfType) N : (0 < N)%N -> N.-primitive_root (root_family R N).
Proof. by case: N => // N _; rewrite /root_family; exact: xchooseP. Qed.

Section Single.
Variables (R : rcfType) (w : nat -> R[i]).
Hypothesis wP : forall k, (2 ^ k.+1)%N.-primitive_root (w (2 ^ k.+1)).

Definition ex_two : 'M[R]_(2, 2) := 1%:M.

Lemma at_time_two (i : 'I_2) (t : 'I_2) : at_time ex_two i t = (i == t)%:R.
Proof. by rewrite /at_time valK /ex_two mxE. Qed.

Lemma corr_two0 i j : corr_matrix ex_two ex_two 0 i j = 2%:R^-1 * (i == j)%:R.
Proof.
rewrite mxE /corr_estimate; congr (_ * _).
rewrite !big_ord_recl big_ord0 /= !(at_time_two _ 0) !(at_time_two _ 1).
case: i => [[|[|i]] // ?]; case: j => [[|[|j]] // ?]; rewrite ?mul0r ?mulr0 ?mulr1 ?addr0 ?add0r //.
Qed.

Lemma corr_two1 i j : corr_matrix ex_two ex_two 1 i j = (i == 0)%:R * (j == 1)%:R.
Proof.
rewrite mxE /corr_estimate invr1 mul1r big_ord1 /=.
by rewrite (at_time_two _ 0) (at_time_two _ 1).
Qed.

Lemma single_disagree :
  exists2 x, correlation_ND_single w ex_two None = Ok x &
    correlation_direct_ND_single ex_two None <> Ok x.
Proof.
rewrite (correlation_ND_singleE wP) //; eexists; first by [].
rewrite direct_ND_singleE // => -[] E _.
have := congr1 (fun A : 'M[R]_2 => A 0 1) E.
rewrite !mxE.
have -> : corr_estimate 2 (at_time ex_two 1) (at_time ex_two 1) 0 = 2%:R^-1 * 1.
  by have := corr_two0 1 1; rewrite mxE.
have -> : corr_estimate 2 (at_time ex_two 1) (at_time ex_two 0) 0 = 2%:R^-1 * 0.
  by have := corr_two0 1 0; rewrite mxE.
rewrite mulr1 mulr0 => /eqP.
by rewrite invr_eq0 pnatr_eq0.
Qed.

Lemma single_transposed :
  exists2 x, correlation_ND_single w ex_two None = Ok x &
    ~ (forall n, (n < size x)%N -> nth 0 x n = corr_matrix ex_two ex_two n).
Proof.
rewrite (correlation_ND_singleE wP) //; eexists; first by [].
rewrite size_mkseq => /(_ 1%N isT); rewrite nth_mkseq // => E.
have := congr1 (fun A : 'M[R]_2 => A 0 1) E.
rewrite mxE !corr_two1 /= !mul0r mulr1 => /eqP.
by rewrite eq_sym oner_eq0.
Qed.

Lemma single_agree1 T (a : 'rV[R]_T) tr :
  (0 < len_trunc T tr)%N ->
  correlation_direct_ND_single a tr = correlation_ND_single w a tr /\
  correlation_ND_single w a tr = Ok (mkseq (corr_matrix a a) (len_trunc T tr)).
Proof.
move=> L0; have T0 : (0 < T)%N by apply: leq_trans L0 (len_truncE _ _).
rewrite (correlation_ND_singleE wP) // direct_ND_singleE //.
by split; congr Ok; apply: eq_mkseq => n; apply/matrixP => i j; rewrite !mxE !ord1.
Qed.

End Single.
