(** * Finite element layout: lemmas. *)
From mathcomp Require Import all_ssreflect all_algebra zify.
From Verif Require Import Base FemLayout.
Set Implicit Arguments.
Unset Strict Implicit.
Unset Printing Implicit Defensive.
Import GRing.Theory.
Local Open Scope ring_scope.

(** Concatenation of blocks of one size. *)
Lemma size_blocks T (f : nat -> seq T) m n : (forall k, (k < m)%N -> size (f k) = n) -> size (flatten (mkseq f m)) = (m * n)%N.
Proof.
elim: m => // m IH h; rewrite /mkseq -addn1 iotaD map_cat flatten_cat size_cat -/(mkseq f m) IH; last by move=> k lk; apply: h; lia.
by rewrite /= cats0 h //; lia.
Qed.
Lemma nth_blocks T (f : nat -> seq T) m n x0 k s : (forall k, (k < m)%N -> size (f k) = n) -> (k < m)%N -> (s < n)%N ->
  nth x0 (flatten (mkseq f m)) (k * n + s) = nth x0 (f k) s.
Proof.
elim: m => // m IH h; rewrite ltnS => lk ls.
rewrite /mkseq -addn1 iotaD map_cat flatten_cat nth_cat -/(mkseq f m) (@size_blocks _ _ _ n); last by move=> i li; apply: h; lia.
case E: (k * n + s < m * n)%N.
  have lk' : (k < m)%N by rewrite ltnNge; apply/negP => mk; have := leq_mul mk (leqnn n); lia.
  by apply: IH => // i li; apply: h; lia.
have -> : k = m.
  by apply/eqP; rewrite eqn_leq lk /= leqNgt; apply/negP => km; have := leq_mul km (leqnn n); rewrite mulSn; lia.
by rewrite /= cats0; congr nth; lia.
Qed.
Lemma divn_block k n s : (s < n)%N -> ((k * n + s) %/ n)%N = k.
Proof. by move=> ls; rewrite divnMDl ?divn_small ?addn0 //; lia. Qed.
Lemma modn_block k n s : (s < n)%N -> ((k * n + s) %% n)%N = s.
Proof. by move=> ls; rewrite modnMDl modn_small. Qed.
Lemma block_split e m n : (e < m * n)%N -> exists k s, [/\ e = (k * n + s)%N, (k < m)%N & (s < n)%N].
Proof.
case: n => [|n]; first by rewrite muln0.
move=> le; exists (e %/ n.+1)%N, (e %% n.+1)%N; split; [exact: divn_eq | | exact: ltn_pmod].
by rewrite ltn_divLR.
Qed.
Lemma tileE k a : tile k a = flatten (mkseq (fun _ => a) k).
Proof. by rewrite /tile /mkseq -[k in nseq k]/(k) ; congr flatten; elim: k 0%N => //= k IH i; rewrite (IH i.+1). Qed.
Lemma nth_tile k a e : (e < k * size a)%N -> nth 0%N (tile k a) e = nth 0%N a (e %% size a).
Proof. by move=> /block_split[i [s [-> li ls]]]; rewrite tileE nth_blocks // modn_block. Qed.
Lemma size_tile k a : size (tile k a) = (k * size a)%N.
Proof. by rewrite tileE (@size_blocks _ _ _ (size a)). Qed.
Lemma nth_repeat n c e : (e < n * c)%N -> nth 0%N (repeat_arange n c) e = (e %/ c)%N.
Proof.
move=> /block_split[i [s [-> li ls]]]; rewrite /repeat_arange nth_blocks // ?nth_nseq ?ls ?divn_block //.
by move=> k _; rewrite size_nseq.
Qed.
Lemma size_repeat n c : size (repeat_arange n c) = (n * c)%N.
Proof. by apply: size_blocks => k _; rewrite size_nseq. Qed.
Lemma size_ravel2 T m n (f : nat -> nat -> T) : size (ravel2 m n f) = (m * n)%N.
Proof. by apply: size_blocks => k _; rewrite size_mkseq. Qed.
Lemma nth_ravel2 T m n (f : nat -> nat -> T) x0 k s : (k < m)%N -> (s < n)%N -> nth x0 (ravel2 m n f) (k * n + s) = f k s.
Proof. by move=> lk ls; rewrite /ravel2 nth_blocks // ?nth_mkseq // => i _; rewrite size_mkseq. Qed.
Lemma size_ravel3 T m n p (f : nat -> nat -> nat -> T) : size (ravel3 m n p f) = (m * (n * p))%N.
Proof. by apply: size_blocks => k _; rewrite size_ravel2. Qed.
Lemma nth_ravel3 T m n p (f : nat -> nat -> nat -> T) x0 k s j : (k < m)%N -> (s < n)%N -> (j < p)%N ->
  nth x0 (ravel3 m n p f) (k * (n * p) + (s * p + j)) = f k s j.
Proof.
move=> lk ls lj; rewrite /ravel3 (@nth_blocks _ _ _ (n * p)) ?nth_ravel2 //.
  by move=> i _; rewrite size_ravel2.
by apply: leq_trans (_ : s.+1 * p <= _)%N; [rewrite mulSn; lia | exact: leq_mul].
Qed.
Lemma all_nthE (a : pred nat) (l : seq nat) : (forall e, (e < size l)%N -> a (nth 0%N l e)) -> all a l.
Proof. by move=> h; apply/(all_nthP 0%N). Qed.

Section Layout.
Variable V : zmodType.
Implicit Types (phi : nat -> nat -> V) (grad : nat -> nat -> nat -> V).

Lemma sum_blocks m n (F : nat -> V) : \sum_(e < m * n) F e = \sum_(k < m) \sum_(s < n) F (k * n + s)%N.
Proof.
elim: m => [|m IH]; first by rewrite mul0n !big_ord0.
rewrite big_ord_recr /= -IH mulSn addnC big_split_ord /=.
by congr (_ + _).
Qed.
Lemma sum_pick (n : nat) (i : nat) (F : nat -> V) : (i < n)%N -> \sum_(s < n) (if (s == i :> nat) then F s else 0) = F i.
Proof.
move=> li; rewrite (bigD1 (Ordinal li)) //= eqxx big1 ?addr0 // => s ns.
by case: eqP => // e; case/eqP: ns; apply/val_inj.
Qed.

(** What the arrays should be: at a sample, the functions of its cell attached to the unknown. *)
Definition basis_spec (Nb : nat) (dofs : nat -> nat -> nat) (cells : nat -> nat) phi (s d : nat) : V :=
  \sum_(k < Nb | dofs k (cells s) == d) phi k s.
Definition deriv_spec (Nb : nat) (dofs : nat -> nat -> nat) (cells : nat -> nat) grad (s d j : nat) : V :=
  \sum_(k < Nb | dofs k (cells s) == d) grad k s j.

Lemma fem_basisE ns Nb nout dofs cells phi :
  (forall k s, (k < Nb)%N -> (s < ns)%N -> (dofs k (cells s) < nout)%N) ->
  exists2 D, fem_basis ns Nb nout dofs cells phi = Ok D &
  forall s d, (s < ns)%N -> D s d = basis_spec Nb dofs cells phi s d.
Proof.
move=> hd; rewrite /fem_basis /coo2 size_tile size_iota !size_ravel2 eqxx /=.
have -> : all (gtn ns) (tile Nb (iota 0 ns)).
  apply: all_nthE => e; rewrite size_tile size_iota => le.
  rewrite nth_tile size_iota //; have [k [s [-> lk ls]]] := block_split le.
  by rewrite modn_block // nth_iota //= ls.
have -> : all (gtn nout) (ravel2 Nb ns (fun k s => dofs k (cells s))).
  apply: all_nthE => e; rewrite size_ravel2 => /block_split[k [s [-> lk ls]]].
  by rewrite nth_ravel2 //=; apply: hd.
eexists; first by [].
move=> s d ls /=.
rewrite big_mkcond /= (sum_blocks _ _ (fun e => if (nth 0%N (tile Nb (iota 0 ns)) e == s) &&
  (nth 0%N (ravel2 Nb ns (fun k s => dofs k (cells s))) e == d) then nth 0 (ravel2 Nb ns phi) e else 0)).
rewrite /basis_spec [RHS]big_mkcond /=; apply: eq_bigr => k _.
rewrite -(@sum_pick ns s (fun s => if dofs k (cells s) == d then phi k s else 0)) //.
apply: eq_bigr => s' _; rewrite nth_tile size_iota; last first.
  by apply: leq_trans (_ : k.+1 * ns <= _)%N; [rewrite mulSn; have := ltn_ord s'; lia | exact: leq_mul].
rewrite modn_block // nth_iota // add0n !nth_ravel2 //.
by case: (s' == s :> nat).
Qed.

Lemma deriv_ok ns Nb dim nout dofs cells grad :
  (forall k s, (k < Nb)%N -> (s < ns)%N -> (dofs k (cells s) < nout)%N) ->
  exists2 D, fem_deriv ns Nb dim nout dofs cells grad = Ok D &
  forall s d l, D s d l = \sum_(e < dim * (Nb * ns) | [&& (e %% ns == s)%N,
    nth 0%N (ravel2 Nb ns (fun k s => dofs k (cells s))) (e %% (Nb * ns)) == d & (e %/ (Nb * ns) == l)%N])
    nth 0 (ravel3 Nb ns dim grad) e.
Proof.
move=> hd; rewrite /fem_deriv /coo3 !size_tile size_iota size_repeat size_ravel3 size_ravel2.
have E1 : (dim * Nb * ns = dim * (Nb * ns))%N by lia.
have E2 : (dim * (ns * Nb) = dim * (Nb * ns))%N by lia.
have E3 : (Nb * (ns * dim) = dim * (Nb * ns))%N by lia.
rewrite E1 E2 E3 eqxx /=.
have le0 e : (e < dim * (Nb * ns))%N -> (0 < ns)%N by case: (ns) => //; rewrite !muln0.
have -> : all (gtn ns) (tile (dim * Nb) (iota 0 ns)).
  apply: all_nthE => e; rewrite size_tile size_iota => le; rewrite nth_tile size_iota //.
  have ns0 : (0 < ns)%N by apply: (le0 e); rewrite -E1.
  by rewrite nth_iota /= ?ltn_pmod // add0n ltn_pmod.
have -> : all (gtn nout) (tile dim (ravel2 Nb ns (fun k s => dofs k (cells s)))).
  apply: all_nthE => e; rewrite size_tile size_ravel2 => le; rewrite nth_tile size_ravel2 //.
  have h : (e %% (Nb * ns) < Nb * ns)%N by apply: ltn_pmod; move: le; case: (Nb * ns)%N => //; rewrite muln0.
  by have [k [s [-> lk ls]]] := block_split h; rewrite nth_ravel2 //=; apply: hd.
have -> : all (gtn dim) (repeat_arange dim (ns * Nb)).
  apply: all_nthE => e; rewrite size_repeat => le; rewrite nth_repeat //=.
  by have [k [s [-> lk ls]]] := block_split le; rewrite divn_block.
eexists; first by [].
move=> s d l /=; apply: eq_bigl => e /=.
have le := ltn_ord e.
rewrite nth_tile size_iota ?E1 // nth_tile size_ravel2 // nth_repeat ?E2 // nth_iota ?ltn_pmod ?(le0 e) //.
by rewrite add0n (mulnC ns).
Qed.
(** Right in one dimension. *)
Lemma fem_deriv1 ns Nb nout dofs cells grad :
  (forall k s, (k < Nb)%N -> (s < ns)%N -> (dofs k (cells s) < nout)%N) ->
  exists2 D, fem_deriv ns Nb 1 nout dofs cells grad = Ok D &
  forall s d, (s < ns)%N -> D s d 0%N = deriv_spec Nb dofs cells grad s d 0.
Proof.
move=> hd; have [D -> HD] := deriv_ok 1 grad hd; exists D => // s d ls; rewrite HD mul1n.
rewrite big_mkcond /= (sum_blocks _ _ (fun e => if [&& (e %% ns == s)%N,
    nth 0%N (ravel2 Nb ns (fun k s => dofs k (cells s))) (e %% (Nb * ns)) == d & (e %/ (Nb * ns) == 0)%N]
    then nth 0 (ravel3 Nb ns 1 grad) e else 0)).
rewrite /deriv_spec [RHS]big_mkcond /=; apply: eq_bigr => k _.
rewrite -(@sum_pick ns s (fun s => if dofs k (cells s) == d then grad k s 0%N else 0)) //.
apply: eq_bigr => s' _.
have le : (k * ns + s' < Nb * ns)%N.
  by apply: leq_trans (_ : k.+1 * ns <= _)%N; [rewrite mulSn; have := ltn_ord s'; lia | exact: leq_mul].
rewrite (modn_small le) (divn_small le) eqxx andbT modn_block // nth_ravel2 //.
have -> : (k * ns + s' = k * (ns * 1) + (s' * 1 + 0))%N by lia.
by rewrite nth_ravel3 //; case: (s' == s :> nat).
Qed.
(** One function at one sample. *)
Lemma fem_deriv_single dim nout dofs cells grad : (dofs 0%N (cells 0%N) < nout)%N ->
  exists2 D, fem_deriv 1 1 dim nout dofs cells grad = Ok D &
  forall d j, (j < dim)%N -> D 0%N d j = deriv_spec 1 dofs cells grad 0 d j.
Proof.
move=> hd; have [|D -> HD] := @deriv_ok 1 1 dim nout dofs cells grad; first by case=> // -[].
exists D => // d j lj; rewrite HD /deriv_spec big_mkcond /=.
rewrite (eq_bigr (fun e : 'I_(dim * (1 * 1)) => if (e == j :> nat) then (if dofs 0%N (cells 0%N) == d then grad 0%N 0%N e else 0) else 0)); last first.
  move=> e _; have le : (e < dim)%N by have := ltn_ord e; lia.
  have -> : nth 0 (ravel3 1 1 dim grad) e = grad 0%N 0%N e by have := @nth_ravel3 _ 1 1 dim grad 0 0 0 e isT isT le; rewrite !mul0n.
  by move: (nat_of_ord e) => {le}e; rewrite muln1 divn1 modn1 eqxx /=; case: (e == j :> nat); rewrite ?andbT ?andbF.
rewrite (@sum_pick _ j (fun e => if dofs 0%N (cells 0%N) == d then grad 0%N 0%N e else 0)) ?muln1 //.
by rewrite [RHS]big_mkcond /= big_ord_recl big_ord0 addr0.
Qed.
(** Wrong otherwise, whatever the mesh. *)
Lemma fem_deriv_wrong ns Nb dim nout dofs cells (v : V) : v <> 0 -> (1 < dim)%N -> (1 < Nb * ns)%N ->
  (forall k s, (k < Nb)%N -> (s < ns)%N -> (dofs k (cells s) < nout)%N) ->
  exists grad D, fem_deriv ns Nb dim nout dofs cells grad = Ok D /\
  exists s d j, [/\ (s < ns)%N, (d < nout)%N, (j < dim)%N & D s d j <> deriv_spec Nb dofs cells grad s d j].
Proof.
move=> v0 ld ln hd.
pose grad k s j : V := if [&& k == 0%N, s == 0%N & j == 1%N] then v else 0.
have [D E HD] := @deriv_ok ns Nb dim nout dofs cells grad hd.
exists grad, D; split=> //.
have ns0 : (0 < ns)%N by move: ln; case: (ns) => //; rewrite muln0.
have [k [s [E1 lk ls]]] := block_split ln.
exists s, (dofs k (cells s)), 0%N; split=> //; [exact: hd | lia |].
have -> : deriv_spec Nb dofs cells grad s (dofs k (cells s)) 0 = 0.
  by apply: big1 => i _; rewrite /grad /= !andbF.
have l1 : (1 < dim * (Nb * ns))%N by apply: leq_trans ln _; rewrite leq_pmull //; lia.
rewrite HD (bigD1 (Ordinal l1)) /=; last first.
  by rewrite (modn_small ln) (divn_small ln) E1 modn_block // nth_ravel2 // !eqxx.
have -> : nth 0 (ravel3 Nb ns dim grad) 1 = v.
  have Nb0 : (0 < Nb)%N by lia.
  by have := @nth_ravel3 _ Nb ns dim grad 0 0 0 1 Nb0 ns0 ld; rewrite !mul0n.
rewrite big1 ?addr0 // => e /andP[_ ne].
have le : (e < Nb * (ns * dim))%N by have := ltn_ord e; lia.
have [i [r [Ee li lr]]] := block_split le; have [t [j [Er lt lj]]] := block_split lr.
rewrite Ee Er nth_ravel3 // /grad; case: ifP => // /and3P[/eqP i0 /eqP t0 /eqP j1].
by case/eqP: ne; apply/val_inj; rewrite /= Ee Er i0 t0 j1.
Qed.
End Layout.
