(** * Prony series: specification and proofs. *)
From mathcomp Require Import all_ssreflect all_algebra.
From mathcomp Require Import zify.
From Verif Require Import Base Tactics Prony.
Set Implicit Arguments.
Unset Strict Implicit.
Unset Printing Implicit Defensive.
Import Order.TTheory GRing.Theory Num.Theory.
Local Open Scope ring_scope.

Section Spec.
Variable R : rcfType.

(** What [np.linalg.svd(A, hermitian=True)] returns: an orthogonal [U], nonnegative values
    in decreasing order, [Vh] made of the columns of [U] with a sign. *)
Definition hsvd n (A U : 'M[R]_n.+1) (s : seq R) (Vh : 'M[R]_n.+1) : Prop :=
  [/\ U^T *m U = 1%:M, size s = n.+1, sorted >=%R s, forall i, 0 <= s`_i
    & exists2 sgn : nat -> R, forall k j, Vh k j = sgn k * U j k
        & forall i j, A i j = \sum_(k < n.+1) U i k * s`_k * Vh k j].

End Spec.

Section Series.
Variable R : rcfType.
Implicit Types (y : seq R) (n N : nat).

Lemma hankelE y n i j : (2 * n < size y)%N -> hankel y n i j = y`_(i + j).
Proof.
move=> sy; rewrite mxE; have li := ltn_ord i; have lj := ltn_ord j.
case: leqP => h; first by rewrite nth_take // ltnS.
by rewrite nth_take ?nth_drop ?subnKC //; slia.
Qed.

Lemma half_lenP y : (0 < size y)%N -> (2 * half_len y < size y)%N /\ (size y <= (2 * half_len y).+2)%N.
Proof. by rewrite /half_len; slia. Qed.

Lemma hankel_sym y n : (hankel y n)^T = hankel y n.
Proof. by apply/matrixP => i j; rewrite !mxE addnC. Qed.

Lemma nth_enum_map (T : Type) m (f : 'I_m -> T) x0 (i : nat) (lt : (i < m)%N) :
  nth x0 [seq f k | k <- enum 'I_m] i = f (Ordinal lt).
Proof.
rewrite (nth_map (Ordinal lt)) ?size_enum_ord //; congr (f _).
by apply: val_inj; rewrite /= nth_enum_ord.
Qed.

Lemma nth_write_at y o s i : (o <= size y)%N ->
  (write_at y o s)`_i = if (i < o)%N then y`_i else if (i < o + size s)%N then s`_(i - o) else y`_i.
Proof.
move=> oy; rewrite /write_at nth_cat size_takel //; case: ltnP => io; first by rewrite nth_take.
rewrite nth_cat ltn_subLR //; case: ltnP => ios //.
by rewrite nth_drop; congr (nth _ _ _); slia.
Qed.

Lemma size_write_at y o s : (o + size s <= size y)%N -> size (write_at y o s) = size y.
Proof. by move=> h; rewrite /write_at !size_cat size_drop size_takel; slia. Qed.

(** The round trip of a square Hankel matrix. *)
Lemma reconstruct_hankel y n junk : (2 * n < size y)%N ->
  reconstruct_data (hankel y n) junk = take (2 * n).+1 y.
Proof.
move=> sy; set m := (n.+1 + n.+1 - 1)%N.
have sc (f : 'I_n.+1 -> R) : size [seq f k | k <- enum 'I_n.+1] = n.+1 by rewrite size_map size_enum_ord.
have s1 : size (write_at (mkseq junk m) 0 [seq hankel y n i 0 | i <- enum 'I_n.+1]) = m.
  by rewrite size_write_at size_mkseq // sc /m; lia.
have s2 : size (reconstruct_data (hankel y n) junk) = m.
  by rewrite /reconstruct_data size_write_at s1 // sc /m; lia.
apply: (@eq_from_nth _ 0); first by rewrite s2 size_takel /m; slia.
move=> i; rewrite s2 => li; rewrite nth_take; last by rewrite /m in li; lia.
rewrite /reconstruct_data nth_write_at ?s1; last by rewrite /m; lia.
case: ltnP => h1.
  rewrite nth_write_at // ltn0 add0n sc subn0 ifT; last by lia.
  have l1 : (i < n.+1)%N by lia.
  by rewrite (nth_enum_map _ _ l1) hankelE //= addn0.
have l1 : (i - (n.+1 - 1) < n.+1)%N by rewrite /m in li; lia.
rewrite sc ifT; last by rewrite /m in li; lia.
by rewrite (nth_enum_map _ _ l1) hankelE //=; congr (nth _ _ _); lia.
Qed.

End Series.

(** ** Orthogonalisation *)
Section Orth.
Variables (R : rcfType) (n : nat) (H : 'M[R]_n.+1).
Hypothesis Hs : H^T = H.
Implicit Types (u v t : 'rV[R]_n.+1) (us : seq 'rV[R]_n.+1).
Local Notation phi u v := (phi_bis u v H).

Lemma phiE u v : phi u v = (u *m H *m v^T) 0 0.
Proof. by rewrite /phi_bis mulmxA. Qed.

Lemma phiC u v : phi u v = phi v u.
Proof.
have E : (u *m H *m v^T)^T = v *m H *m u^T by rewrite !trmx_mul trmxK Hs mulmxA.
by rewrite !phiE -E [RHS]mxE.
Qed.

Lemma phiDl a u v w : phi (u - a *: v) w = phi u w - a * phi v w.
Proof. by rewrite !phiE !mulmxBl -!scalemxAl !mxE. Qed.

Lemma phiZ a b u v : phi (a *: u) (b *: v) = b * a * phi u v.
Proof. by rewrite !phiE linearZ /= -scalemxAr -!scalemxAl scalerA mxE. Qed.

Definition orthogonal us := forall i j, (i < size us)%N -> (j < size us)%N -> i != j -> phi us`_i us`_j = 0.

(** The span: what differs from [t] is a combination of the kept vectors. *)
Definition comb us t := exists c : nat -> R, t = \sum_(j < size us) c j *: us`_j.

Lemma orthE us t : orthogonal us -> (forall i, (i < size us)%N -> phi us`_i us`_i != 0) ->
  exists2 t', orth H t us = Ok t' &
    (forall v, (forall i, (i < size us)%N -> phi us`_i v = 0) -> phi t' v = phi t v)
    /\ (forall i, (i < size us)%N -> phi t' us`_i = 0) /\ comb us (t' - t).
Proof.
elim: us t => [|u us IH] t O Nz /=.
  exists t => //; split=> //; split=> //; exists (fun=> 0).
  by rewrite big_ord0 subrr.
have u0 := Nz 0%N isT; rewrite (negPf u0) /=.
set t1 := t - _.
have O' : orthogonal us by move=> i j li lj ij; exact: (O i.+1 j.+1).
have [|t' -> [Hv [Hu [c Hc]]]] := IH t1 O'; first by move=> i; exact: (Nz i.+1).
exists t' => //; split.
  move=> v Hv'; rewrite Hv; last by move=> i li; exact: (Hv' i.+1).
  by rewrite phiDl (Hv' 0%N) // mulr0 subr0.
split.
  case=> [_|i li]; last exact: Hu.
  rewrite Hv; last by move=> i li; exact: (O i.+1 0%N).
  by rewrite phiDl divfK // subrr.
exists (fun j => if j is j'.+1 then c j' else - (phi t u / phi u u)) => /=.
rewrite big_ord_recl /= -Hc scaleNr /t1 opprD opprK addrA.
by abel.
Qed.

Lemma orth_nil t : orth H t [::] = Ok t. Proof. by []. Qed.

Variables (thres : R) (N : nat).
Hypothesis thres0 : 0 < thres.

Definition kept_ok us (D : seq R) :=
  [/\ size D = size us, orthogonal us, forall i, (i < size us)%N -> phi us`_i us`_i = D`_i
    & forall i, (i < size us)%N -> thres <= `|D`_i|].

Lemma kept_nz us D i : kept_ok us D -> (i < size us)%N -> phi us`_i us`_i != 0.
Proof.
case=> _ _ E T li; rewrite E //; have := T i li; case: eqP => // ->.
by rewrite normr0 leNgt thres0.
Qed.

Lemma ldl_loopP l us D : kept_ok us D -> (size us < N)%N ->
  exists us' D', [/\ ldl_loop H thres N l us D = Ok (us', D'), kept_ok us' D', (size us' <= N)%N
    & (size us <= size us')%N].
Proof.
elim: l us D => [|i l IH] us D K lN /=; first by exists us, D; split=> //; exact: ltnW.
have [sD O E T] := K.
have [|t -> [_ [Hu _]] /=] := @orthE us (delta_mx 0 i) O; first by move=> j; exact: kept_nz K.
case: (lerP thres) => c /=; last by rewrite leqNgt lN /=; exact: IH.
rewrite lN /= size_rcons.
have K' : kept_ok (rcons us t) (rcons D (phi t t)).
  split; rewrite ?size_rcons ?sD //.
  - move=> a b; rewrite !size_rcons !ltnS => la lb ab; rewrite !nth_rcons.
    case: ltngtP la => // [la _|ea _].
      case: ltngtP lb => // [lb _|eb _]; first exact: O.
      by rewrite phiC Hu.
    case: ltngtP lb => // [lb _|eb _]; first exact: Hu.
    by rewrite ea eb eqxx in ab.
  - move=> a; rewrite ltnS !nth_rcons sD; case: ltngtP => // la _; exact: E.
  - move=> a; rewrite ltnS !nth_rcons sD; case: ltngtP => // la _; exact: T.
case: leqP => h; first by exists (rcons us t), (rcons D (phi t t)); split; rewrite ?size_rcons.
have [|us' [D' [El Kl s1 s2]]] := IH _ _ K'; first by rewrite size_rcons.
by exists us', D'; split=> //; rewrite size_rcons in s2; slia.
Qed.

(** As long as nothing has been kept the candidates are the unit vectors. *)
Lemma ldl_loop_nil l : (0 < N)%N ->
  forall us D, ldl_loop H thres N l [::] [::] = Ok (us, D) ->
  (size us == 0%N) = all (fun i => `|H i i| < thres) l.
Proof.
move=> N0; elim: l => [|i l IH] us D /=; first by case=> <- _.
have Ephi : phi (delta_mx 0 i) (delta_mx 0 i) = H i i.
  by rewrite phiE trmx_delta -rowE mxE (bigD1 i) //= big1 ?addr0 => [|j /negPf ji];
     rewrite !mxE ?ji ?andbF ?mulr0 // !eqxx mulr1.
rewrite Ephi; case: (lerP thres) => c /=; last by rewrite leqNgt N0 /=; exact: IH.
rewrite N0 /=.
have K : kept_ok [:: delta_mx 0 i] [:: H i i].
  split=> //; [by case=> [|a] [|b] | by case=> [|a] //= _; rewrite Ephi | by case].
case: leqP => h E; first by case: E => <- _.
have [us' [D' [E' _ _ s']]] := ldl_loopP l K h.
by move: E; rewrite E' => -[<- _]; apply/negbTE; rewrite -lt0n.
Qed.

Lemma ldl_rowsE : (0 < N)%N ->
  if [forall i, `|H i i| < thres] then ldl_rows H thres N = Err ValueError
  else exists us D dlu sg,
    [/\ ldl_loop H thres N (enum 'I_n.+1) [::] [::] = Ok (us, D),
        ldl_rows H thres N = Ok (dlu, sg), kept_ok us D, (0 < size us <= N)%N
      & dlu = mkseq (fun i => (1 / Num.sqrt `|D`_i|) *: us`_i) (size us) /\ sg = map Num.sg D].
Proof.
move=> N0; have K0 : kept_ok [::] [::] by split.
have [us [D [E K sN _]]] := ldl_loopP (enum 'I_n.+1) K0 N0.
have := ldl_loop_nil N0 E; rewrite /ldl_rows E /=.
have -> : all (fun i => `|H i i| < thres) (enum 'I_n.+1) = [forall i, `|H i i| < thres].
  apply/allP/forallP => [h i|h i _]; last exact: h.
  by apply: h; rewrite mem_enum.
move=> <-; case s0: (size us == 0%N) => //.
have -> : has (fun c => c == 0) D = false.
  apply/negbTE/hasPn => c /(nthP 0)[i li <-].
  have [sD _ _ T] := K; rewrite sD in li; have := T i li.
  by case: eqP => // ->; rewrite normr0 leNgt thres0.
by do 4!eexists; split; try reflexivity; rewrite ?lt0n ?s0.
Qed.

Lemma dlu_orthonormal us D i j : kept_ok us D -> (i < size us)%N -> (j < size us)%N ->
  let dlu := mkseq (fun i => (1 / Num.sqrt `|D`_i|) *: us`_i) (size us) in
  phi dlu`_i dlu`_j = if i == j then Num.sg D`_i else 0.
Proof.
move=> K li lj; rewrite /= !nth_mkseq // phiZ.
have [_ O E T] := K; case: eqP => [<-|/eqP ij]; last by rewrite O // !mulr0.
have d0 : 0 < `|D`_i| by apply: lt_le_trans (T i li).
rewrite E // !mul1r -invfM -expr2 sqr_sqrtr ?ltW // mulrC {1}[D`_i]numEsg -mulrA mulfV ?mulr1 //.
by rewrite gt_eqF.
Qed.

End Orth.
