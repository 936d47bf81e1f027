(** * Position-dependent coloured noise: proofs. *)
From Coq Require Import Reals Lra Lia ZArith.
From Coquelicot Require Import Complex.
From mathcomp Require Import all_ssreflect zify.
From Verif Require Import Base Tactics Colored ColoredProofs ColoredProofs2 ColoredProofs3 ColoredProofs4 PosColored.
Set Implicit Arguments.
Unset Strict Implicit.
Unset Printing Implicit Defensive.
Local Open Scope R_scope.

Local Lemma bindOk (A B : Type) (a : A) (f : A -> res B) : bind (Ok a) f = f a. Proof. by []. Qed.

(** ** Transform of a symmetrised kernel on a grid *)
Definition grid_w (n : nat) (dt : R) : seq R := mkseq (fun k => 2 * PI * (IZR (freq n k) / INR n) / dt) n.
Definition grid (t : seq R) (dt : R) : Prop := 0 < dt /\ forall i, (i < size t)%N -> nth 0 t i = INR i * dt.

Lemma ft_spectrum kernel t dt : (1 < size kernel)%N -> size t = size kernel -> grid t dt ->
  let n := (2 * (size kernel).-1).+1 in
  ft (map RtoC (sym_kernel kernel)) (sym_times t)
  = Ok (map RtoC (mkseq (fun k => dt * spectrum kernel k) n), grid_w n dt).
Proof.
move=> k2 st [d0 Ht] n.
have sks : size (map RtoC (sym_kernel kernel)) = n by rewrite size_map (size_ks k2 st).
have n0 : (0 < n)%N by [].
have nn := n_neq0 n0.
have stt : (1 < size (sym_times t))%N by rewrite (size_ts k2 st); lia.
have tdt := ts_dt k2 st Ht.
have dtn : nth 0 (sym_times t) 1 - nth 0 (sym_times t) 0 <> 0 by rewrite tdt; lra.
have f0 : (0 < size (map RtoC (sym_kernel kernel)))%N by rewrite sks.
have [gw [-> [sg sw] Hw Hg]] := ftE f0 stt dtn; rewrite sks in sg sw Hw Hg *.
congr Ok; rewrite [gw]surjective_pairing; congr pair.
  apply: (@eq_from_nth _ (RtoC 0)); first by rewrite size_map size_mkseq.
  move=> k; rewrite sg => kn; rewrite (nth_map 0) ?size_mkseq // nth_mkseq // Hg // fftE sks // Hw // tdt (ts0 k2 st Ht).
  rewrite RtoC_mult -(specE k2 st) -(S_real k2 st).
  rewrite (_ : cis _ = e n (freq n k * Z.of_nat (size kernel).-1)); last first.
    by rewrite /e; congr cis; rewrite mult_IZR -INR_IZR_INZ; field; lra.
  rewrite e_freq // Cmult_comm -Cmult_assoc; congr Cmult; rewrite -csum_scal /S; apply: csum_ext => m mn.
  rewrite (nth_map 0) ?(size_ks k2 st) // Cmult_comm -Cmult_assoc -e_plus //; congr (Cmult _ (e _ _)); ring.
apply: (@eq_from_nth _ 0); first by rewrite size_mkseq.
by move=> k; rewrite sw => kn; rewrite nth_mkseq // Hw // tdt.
Qed.

Lemma size_sym_times t : (0 < size t)%N -> size (sym_times t) = (2 * (size t).-1).+1.
Proof. by move=> t0; rewrite size_cat size_map size_rev size_drop; lia. Qed.

(** The transform is linear in the kernel. *)
Lemma rsum_swap n m (F : nat -> nat -> R) : rsum n (fun i => rsum m (F i)) = rsum m (fun j => rsum n (fun i => F i j)).
Proof.
elim: n => [|n IH] /=; first by rewrite rsum_0.
by rewrite IH -rsum_plus.
Qed.

Lemma spectrumS f L j : spectrum (mkseq f L.+1) j
  = f 0%N + 2 * rsum L (fun i => f i.+1 * cos (2 * PI * INR j * INR i.+1 / INR (2 * L).+1)).
Proof.
rewrite /spectrum size_mkseq nth_mkseq //; congr (_ + 2 * _); apply: rsum_ext => i iL.
by rewrite nth_mkseq.
Qed.

Lemma spectrum_mix (a : nat -> R) (b : nat -> nat -> R) m L j :
  spectrum (mkseq (fun i => rsum m (fun k => a k * b k i)) L) j
  = rsum m (fun k => a k * spectrum (mkseq (b k) L) j).
Proof.
case: L => [|L].
  rewrite [RHS](rsum_ext (g := fun _ => 0)); first by rewrite rsum_0 /spectrum /=; ring.
  by move=> k _; rewrite /spectrum /=; ring.
pose C i := cos (2 * PI * INR j * INR i.+1 / INR (2 * L).+1); rewrite spectrumS.
rewrite [RHS](rsum_ext (g := fun k => a k * b k 0%N + 2 * rsum L (fun i => a k * b k i.+1 * C i))); last first.
  move=> k _; rewrite spectrumS Rmult_plus_distr_l; congr (_ + _).
  rewrite -Rmult_assoc (Rmult_comm (a k) 2) Rmult_assoc; congr (2 * _).
  by rewrite rsum_mull; apply: rsum_ext => i _; rewrite /C; ring.
rewrite rsum_plus -rsum_mull rsum_swap; congr (_ + 2 * _); apply: rsum_ext => i _.
by rewrite rsum_mulr.
Qed.

(** ** The generator built on a grid *)
Lemma nth_allpairs (m n k d : nat) x0 : (k < m)%N -> (d < n)%N ->
  nth x0 (allpairs pair (iota 0 m) (iota 0 n)) (k * n + d) = (k, d).
Proof.
move=> km dn.
suff H (s : seq nat) : (k < size s)%N -> nth x0 (allpairs pair s (iota 0 n)) (k * n + d) = (nth 0%N s k, d).
  by rewrite H ?size_iota // nth_iota.
elim: s k {km} => [|x s IH] [|k] //= ks; rewrite nth_cat size_map size_iota.
  by rewrite dn (nth_map 0%N) ?size_iota // nth_iota.
by rewrite ifF; [rewrite (_ : (k.+1 * n + d - n = k * n + d)%N) ?IH //; lia | lia].
Qed.

Definition mixed (K : karr) (E : nat -> nat -> R) (d : nat) : seq R :=
  mkseq (fun i => rsum (k_basis K) (fun k => E k d * k_at K i k d)) (k_len K).

Section Built.
Variables (K : karr) (t : seq R) (dt : R).
Hypothesis k2 : (1 < k_len K)%N.
Hypothesis st : size t = k_len K.
Hypothesis Hg : grid t dt.
Let n := (2 * (k_len K).-1).+1.

Lemma size_kcol k d : size (kcol K k d) = k_len K. Proof. exact: size_mkseq. Qed.

Lemma pos_columnE p : pos_column K (sym_times t) p
  = Ok (mkseq (fun i => dt * spectrum (kcol K p.1 p.2) i) n, grid_w n dt).
Proof.
rewrite /pos_column (@ft_spectrum _ t dt) ?size_kcol // bindOk; set s := mkseq _ _.
rewrite [map Re _](_ : _ = s); last by rewrite -map_comp -[RHS]map_id; apply: eq_map.
by rewrite size_mkseq size_sym_times ?st ?eqxx //; lia.
Qed.

Lemma new_posgenE : exists g, new_posgen K t = Ok g /\
  [/\ pg_dt g = dt, pg_tsym g = sym_times t, pg_basis g = k_basis K /\ pg_dim g = k_dim K,
      (0 < k_basis K * k_dim K)%N -> pg_w g = Some (grid_w n dt)
    & forall k d, (k < k_basis K)%N -> (d < k_dim K)%N ->
        pg_ft g k d = mkseq (fun i => dt * spectrum (kcol K k d) i) n].
Proof.
have [d0 Ht] := Hg.
rewrite /new_posgen (rdE 0) ?st // bindOk (rdE 0) ?st ?(ltnW k2) // bindOk.
set ps := allpairs _ _ _.
have -> : mapM (pos_column K (sym_times t)) ps = Ok [seq (mkseq (fun i => dt * spectrum (kcol K p.1 p.2) i) n, grid_w n dt) | p <- ps].
  by elim: ps => //= p ps ->; rewrite pos_columnE.
rewrite bindOk; eexists; split; first by reflexivity.
have sps : size ps = (k_basis K * k_dim K)%N by rewrite size_allpairs !size_iota.
split=> //=.
- by rewrite !Ht ?st // ?(ltnW k2) // [INR 1]/= [INR 0]/=; ring.
- move=> kd; have : (0 < size ps)%N by rewrite sps.
  case: (ps) => //= p ps' _; congr Some; elim: ps' p => //= q ps' IH p; exact: IH.
move=> k d kn dn; rewrite (nth_map (0%N, 0%N)); last by rewrite sps; nia.
by rewrite nth_allpairs.
Qed.

(** ** One call *)
Section Call.
Variable g : posgen.
Hypothesis Eg : new_posgen K t = Ok g.
Hypothesis kd : (0 < k_basis K * k_dim K)%N.

Lemma builtE : [/\ pg_dt g = dt, pg_tsym g = sym_times t, pg_basis g = k_basis K /\ pg_dim g = k_dim K,
      pg_w g = Some (grid_w n dt)
    & forall k d, (k < k_basis K)%N -> (d < k_dim K)%N ->
        pg_ft g k d = mkseq (fun i => dt * spectrum (kcol K k d) i) n].
Proof. by have [g' [E [? ? ? w ?]]] := new_posgenE; move: E; rewrite Eg => -[->]; split=> //; exact: w. Qed.

Variables (E : earr) (V : nat -> nat -> R).
Hypothesis rows : e_rows E = k_basis K.
Hypothesis cols : (k_dim K <= e_cols E)%N.
Hypothesis vals : forall k l, e_at E k l = RtoC (V k l).

Lemma real_fails ind white : e_complex E = false -> pos_generate g E ind white = Err TypeError.
Proof.
have [_ _ [eb ed] ew _] := builtE; move=> re.
rewrite /pos_generate eb rows eqxx /= ed; case D: (k_dim K) kd cols => [|m]; first by rewrite muln0.
by move=> _ cm; rewrite /= /pos_component (leq_ltn_trans _ cm) //= ew re.
Qed.

Lemma mixedE i d : (i < n)%N -> (d < k_dim K)%N -> mixed_ft g E i d d = RtoC (dt * spectrum (mixed K V d) i).
Proof.
move=> il dl; have [_ _ [eb ed] _ ef] := builtE; rewrite /mixed_ft rows eb if_same.
rewrite /mixed (spectrum_mix (fun k => V k d) (fun k i => k_at K i k d)) rsum_mull -csum_RtoC.
apply: csum_ext => k kl; rewrite (_ : (if _ then _ else _) = k); last by case: eqP => // e1; lia.
rewrite ef // nth_mkseq // vals -RtoC_mult; congr RtoC; rewrite /kcol; ring.
Qed.

Lemma componentE ind white d : (d < k_dim K)%N -> e_complex E ->
  exists2 h, colored_filter (mixed K V d) t = Ok h & size h = n /\ pos_component g E ind white d
    = (let! c := convolve_same (nth [::] white d) h in if size c == maxn ind n then Ok c else Err ValueError).
Proof.
move=> dl cx; have [_ et _ ew _] := builtE; have [d0 Ht] := Hg.
have sm : size (mixed K V d) = k_len K by rewrite size_mkseq.
have km : (1 < size (mixed K V d))%N by rewrite sm.
have sts : size (sym_times t) = n by rewrite size_sym_times st //; lia.
have tm : size t = size (mixed K V d) by rewrite sm st.
have [h Eh [sh _]] := filterE km tm d0 Ht; exists h => //; rewrite sm -/n in sh; split=> //.
move: Eh; rewrite /colored_filter (ft_spectrum km tm Hg) bindOk sm -/n -map_comp.
rewrite /pos_component ew et sts (leq_trans dl cols) cx /guard !bindOk.
set G := map _ _.
rewrite (_ : mkseq (fun i => csqrt (mixed_ft g E i d d)) n = G); last first.
  by rewrite /G -map_comp; apply/eq_in_map => i; rewrite mem_iota add0n => il; rewrite mixedE.
have sG : size G = n by rewrite size_map size_mkseq.
have [|||s -> [ss _]] := @iftE G (grid_w n dt) (sym_times t).
- by rewrite sG /n; lia.
- by rewrite sG size_mkseq.
- by rewrite sts.
by rewrite !bindOk size_map ss sG eqxx => -[->].
Qed.

Lemma conv_size (a v : seq R) : (0 < size a)%N -> (0 < size v)%N ->
  exists2 c, convolve_same a v = Ok c & size c = maxn (size a) (size v).
Proof.
move=> a0 v0; rewrite /convolve_same (gtn_eqF a0) (gtn_eqF v0).
by eexists; [reflexivity | rewrite size_mkseq].
Qed.

Lemma complex_value ind white : e_complex E -> (ind < n)%N ->
  (forall d, (d < k_dim K)%N -> size (nth [::] white d) = n) ->
  exists2 v, pos_generate g E ind white = Ok v & size v = k_dim K /\
    forall d, (d < k_dim K)%N -> exists h s, [/\ colored_filter (mixed K V d) t = Ok h,
      colored_generate h dt (nth [::] white d) = Ok s & nth 0 v d = nth 0 s ind].
Proof.
move=> cx il sw; have [edt et [eb ed] ew _] := builtE; have [d0 Ht] := Hg.
have sts : size (sym_times t) = n by rewrite size_sym_times st //; lia.
pose h d := if colored_filter (mixed K V d) t is Ok h then h else [::].
pose c d := if convolve_same (nth [::] white d) (h d) is Ok c then c else [::].
have C d : (d < k_dim K)%N -> [/\ colored_filter (mixed K V d) t = Ok (h d), convolve_same (nth [::] white d) (h d) = Ok (c d)
    & pos_component g E ind white d = Ok (c d)].
  move=> dl; have [hd Eh [sh ->]] := componentE ind white dl cx; rewrite /c /h Eh.
  have [||cd -> scd] := @conv_size (nth [::] white d) hd; rewrite ?sw ?sh //.
  by split=> //=; rewrite scd sw // sh maxnn (maxn_idPr (ltnW il)) eqxx.
rewrite /pos_generate eb rows eqxx /= ed et sts.
have -> : mapM (pos_component g E ind white) (iota 0 (k_dim K)) = Ok [seq c d | d <- iota 0 (k_dim K)].
  have : forall d, d \in iota 0 (k_dim K) -> (d < k_dim K)%N by move=> d; rewrite mem_iota.
  elim: (iota 0 (k_dim K)) => //= d l IH H; have [_ _ ->] := C d (H d (mem_head _ _)).
  by rewrite IH // => x xl; apply: H; rewrite inE xl orbT.
rewrite bindOk leq_max il orbT /= edt; case: Rle_dec => [dt_pos|dt_neg]; last by case: dt_neg; lra.
eexists; first by reflexivity.
rewrite !size_map size_iota; split=> // d dl; exists (h d), [seq x * sqrt dt | x <- take n (c d)].
have [-> Ec _] := C d dl; split=> //.
  by rewrite /colored_generate Ec bindOk sw //; case: Rle_dec => // dt_neg; case: dt_neg; lra.
have sc : (n <= size (c d))%N.
  move: Ec; rewrite /convolve_same; case: orb => // -[<-]; rewrite size_mkseq sw //; exact: leq_maxl.
rewrite -map_comp (nth_map 0%N) ?size_iota // nth_iota //= add0n (nth_map 0) ?size_takel // nth_take //.
Qed.

Lemma past_end ind white : e_complex E -> (n <= ind)%N ->
  (forall d, (d < k_dim K)%N -> size (nth [::] white d) = n) ->
  pos_generate g E ind white = Err (if ind == n then OutOfBounds else ValueError).
Proof.
move=> cx il sw; have [edt et [eb ed] ew _] := builtE; have [d0 Ht] := Hg.
have sts : size (sym_times t) = n by rewrite size_sym_times st //; lia.
have C d : (d < k_dim K)%N -> if ind == n then exists c, pos_component g E ind white d = Ok c else pos_component g E ind white d = Err ValueError.
  move=> dl; have [hd Eh [sh ->]] := componentE ind white dl cx.
  have [||cd -> scd] := @conv_size (nth [::] white d) hd; rewrite ?sw ?sh //.
  rewrite bindOk scd sw // sh maxnn (maxn_idPl il); case: (ind =P n) => [->|ne].
    by rewrite eqxx; exists cd.
  by rewrite ifF //; apply/eqP => e1; case: ne.
rewrite /pos_generate eb rows eqxx /= ed et sts (maxn_idPl il) ltnn.
have H : forall d, d \in iota 0 (k_dim K) -> (d < k_dim K)%N by move=> d; rewrite mem_iota.
case: (ind =P n) C => [_|_] C.
  suff [l ->] : exists l, mapM (pos_component g E ind white) (iota 0 (k_dim K)) = Ok l by [].
  elim: (iota 0 (k_dim K)) H => [|d l IH] H /=; first by exists [::].
  have [c ->] := C d (H d (mem_head _ _)); have [|l' ->] := IH; last by eexists.
  by move=> x xl; apply: H; rewrite inE xl orbT.
case: (k_dim K) kd C => [|m] ; first by rewrite muln0.
by move=> _ C /=; rewrite C.
Qed.

End Call.
End Built.

(** ** Two calls *)
(** The draws of a call: [dim] arrays of [n] samples from position [off] of the stream on. *)
Definition draws (n dim off : nat) (w : seq R) : seq (seq R) :=
  mkseq (fun d => mkseq (fun j => nth 0 w (off + d * n + j)) n) dim.

Lemma rsum_window (len off n : nat) (a : nat -> R) (x : nat -> R) : (off + n <= len)%N ->
  rsum n (fun j => a j * x (off + j)%N) = rsum len (fun i => (if (off <= i < off + n)%N then a (i - off)%N else 0) * x i).
Proof.
move=> ol; rewrite (_ : len = off + n + (len - (off + n)))%N; last by lia.
rewrite !rsum_split [X in X + _ + _](rsum_ext (g := fun _ => 0)) ?rsum_0; last first.
  by move=> i il; rewrite ifF; [ring | lia].
rewrite [X in _ = _ + _ + X](rsum_ext (g := fun _ => 0)) ?rsum_0; last first.
  by move=> i il; rewrite ifF; [ring | lia].
rewrite Rplus_0_l Rplus_0_r; apply: rsum_ext => i il.
by rewrite ifT; [congr (a _ * _); lia | lia].
Qed.

Section Two.
Variables (K : karr) (t : seq R) (dt : R) (g : posgen).
Hypothesis k2 : (1 < k_len K)%N.
Hypothesis st : size t = k_len K.
Hypothesis Hg : grid t dt.
Hypothesis Eg : new_posgen K t = Ok g.
Hypothesis kd : (0 < k_basis K * k_dim K)%N.
Let n := (2 * (k_len K).-1).+1.

(** An array of complex type and real values that fits the kernel. *)
Definition fits (E : earr) : Prop :=
  [/\ e_complex E, e_rows E = k_basis K, (k_dim K <= e_cols E)%N & forall k l, e_at E k l = RtoC (Re (e_at E k l))].

Lemma value_linear E ind : fits E -> (ind < n)%N -> exists a : nat -> nat -> R,
  forall white, (forall d, (d < k_dim K)%N -> size (nth [::] white d) = n) ->
  exists2 v, pos_generate g E ind white = Ok v & size v = k_dim K /\
    forall d, (d < k_dim K)%N -> nth 0 v d = rsum n (fun j => a d j * nth 0 (nth [::] white d) j).
Proof.
move=> [cx rows cols vals] il; have [d0 Ht] := Hg.
pose V k l := Re (e_at E k l).
pose h d := if colored_filter (mixed K V d) t is Ok h then h else [::].
exists (fun d j => sqrt dt * tap (h d) n ind j) => white sw.
have [v -> [sv Hv]] := complex_value k2 st Hg Eg kd rows cols vals cx il sw; exists v => //; split=> // d dl.
have [hd [s [Eh Es ->]]] := Hv d dl; rewrite /h Eh.
have [h' Eh' [sh _]] := componentE k2 st Hg Eg kd rows cols vals ind white dl cx.
move: Eh'; rewrite Eh => -[E1]; subst h'.
have [|||s' Es' [ss' Hs']] := @generateE hd dt (nth [::] white d); rewrite ?sw ?sh //; first exact: Rlt_le.
by move: Es'; rewrite Es => -[->]; rewrite sw // in Hs'; rewrite Hs' ?sw.
Qed.

Lemma size_draws dim off w d : (d < dim)%N -> size (nth [::] (draws n dim off w) d) = n.
Proof. by move=> dl; rewrite nth_mkseq // size_mkseq. Qed.

Lemma two_calls (Omega : Type) (L : (Omega -> R) -> Prop) (Ex : (Omega -> R) -> R) (w : Omega -> seq R) E1 E2 i1 i2 :
  expect L Ex -> white_seq L Ex (2 * (k_dim K * n)) w -> fits E1 -> fits E2 -> (i1 < n)%N -> (i2 < n)%N ->
  exists v1 v2 : Omega -> seq R,
    [/\ forall x, pos_generate g E1 i1 (draws n (k_dim K) 0 (w x)) = Ok (v1 x),
        forall x, pos_generate g E2 i2 (draws n (k_dim K) (k_dim K * n) (w x)) = Ok (v2 x)
      & forall d d', (d < k_dim K)%N -> (d' < k_dim K)%N ->
        L (fun x => nth 0 (v1 x) d * nth 0 (v2 x) d') /\ Ex (fun x => nth 0 (v1 x) d * nth 0 (v2 x) d') = 0].
Proof.
move=> HE Hw f1 f2 l1 l2.
have [a Ha] := value_linear f1 l1; have [b Hb] := value_linear f2 l2.
pose get E i off x := if pos_generate g E i (draws n (k_dim K) off (w x)) is Ok v then v else [::].
have G1 x : pos_generate g E1 i1 (draws n (k_dim K) 0 (w x)) = Ok (get E1 i1 0%N x) /\ forall d, (d < k_dim K)%N ->
    nth 0 (get E1 i1 0%N x) d = rsum n (fun j => a d j * nth 0 (w x) (d * n + j)).
  have [d|v Ev [_ H]] := Ha (draws n (k_dim K) 0 (w x)); first exact: size_draws.
  rewrite /get Ev; split=> // d dl; rewrite H //; apply: rsum_ext => j jl.
  by rewrite !nth_mkseq.
have G2 x : pos_generate g E2 i2 (draws n (k_dim K) (k_dim K * n) (w x)) = Ok (get E2 i2 (k_dim K * n)%N x) /\ forall d, (d < k_dim K)%N ->
    nth 0 (get E2 i2 (k_dim K * n)%N x) d = rsum n (fun j => b d j * nth 0 (w x) (k_dim K * n + d * n + j)).
  have [d|v Ev [_ H]] := Hb (draws n (k_dim K) (k_dim K * n) (w x)); first exact: size_draws.
  rewrite /get Ev; split=> // d dl; rewrite H //; apply: rsum_ext => j jl.
  by rewrite !nth_mkseq.
exists (get E1 i1 0%N), (get E2 i2 (k_dim K * n)%N); split=> [x|x|d d' dl dl']; [exact: (G1 x).1 | exact: (G2 x).1 |].
have o1 : (d * n + n <= 2 * (k_dim K * n))%N by nia.
have o2 : (k_dim K * n + d' * n + n <= 2 * (k_dim K * n))%N by nia.
pose u (o : nat) (c : nat -> R) i := if (o <= i < o + n)%N then c (i - o)%N else 0.
have [_ [l e1]] := linear_cov HE (u (d * n)%N (a d)) (u (k_dim K * n + d' * n)%N (b d')) Hw.
have E x : rsum (2 * (k_dim K * n)) (fun j => u (d * n)%N (a d) j * nth 0 (w x) j) *
    rsum (2 * (k_dim K * n)) (fun j => u (k_dim K * n + d' * n)%N (b d') j * nth 0 (w x) j)
  = nth 0 (get E1 i1 0%N x) d * nth 0 (get E2 i2 (k_dim K * n)%N x) d'.
  rewrite (G1 x).2 // (G2 x).2 // (rsum_window (a d) (fun i => nth 0 (w x) i) o1).
  by rewrite (rsum_window (b d') (fun i => nth 0 (w x) i) o2).
have [l' e'] := Ex_ext HE E l; split=> //; rewrite -e' e1 -[RHS](rsum_0 (2 * (k_dim K * n))); apply: rsum_ext => i il.
rewrite /u; case: ifP => h1; last by ring.
by rewrite ifF; [ring | nia].
Qed.

End Two.
