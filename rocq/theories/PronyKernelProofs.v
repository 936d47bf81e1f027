(** * Proofs for the Prony series of a whole kernel. *)
From mathcomp Require Import all_ssreflect all_algebra.
From mathcomp Require Import complex.
From Verif Require Import Base EstimatorProofs Prony PronyEval FitMemory PronyKernel.
Set Implicit Arguments.
Unset Strict Implicit.
Unset Printing Implicit Defensive.
Import Order.TTheory GRing.Theory Num.Theory.
Local Open Scope ring_scope.

Local Lemma bindOk (A B : Type) (a : A) (f : A -> res B) : bind (Ok a) f = f a.
Proof. by []. Qed.

Lemma mapM_cat (A B : Type) (f : A -> res B) (s t : seq A) :
  mapM f (s ++ t) = let! a := mapM f s in let! b := mapM f t in Ok (a ++ b).
Proof.
elim: s => [|x s IH] /=; first by case: (mapM f t).
case: (f x) => //= y; rewrite IH; case: (mapM f s) => //= a; by case: (mapM f t).
Qed.

Lemma mapM_rcons (A B : Type) (f : A -> res B) (s : seq A) x :
  mapM f (rcons s x) = let! a := mapM f s in let! b := f x in Ok (rcons a b).
Proof.
rewrite -cats1 mapM_cat; case: (mapM f s) => //= a; case: (f x) => //= b; by rewrite cats1.
Qed.

Lemma mapM_size (A B : Type) (f : A -> res B) (s : seq A) r : mapM f s = Ok r -> size r = size s.
Proof.
elim: s r => [r [<-]|x s IH r] //=; case: (f x) => //= y; case: (mapM f s) IH => //= a IH [<-] /=.
by rewrite (IH a).
Qed.

Lemma mapM_nth (A B : Type) (f : A -> res B) (s : seq A) r a b i : mapM f s = Ok r -> (i < size s)%N ->
  f (nth a s i) = Ok (nth b r i).
Proof.
elim: s r i => [//|x s IH] r i /=; case E: (f x) => [y|//] /=; case E2: (mapM f s) => [ys|//] /= [<-].
by case: i => [|i] //= li; exact: IH.
Qed.

Lemma set_nth_cat (T : Type) (x y z : T) (a b : seq T) j : size a = j ->
  set_nth x (a ++ y :: b) j z = a ++ z :: b.
Proof. by elim: a j => [|w a IH] [|j] //= [] /IH ->. Qed.

Lemma set_nth_twice (T : Type) (x x' y z : T) (s : seq T) j : (j < size s)%N ->
  set_nth x (set_nth x' s j y) j z = set_nth x' s j z.
Proof. by elim: s j => [|w s IH] [|j] //= /IH ->. Qed.

(** Filling a row, then the rows. *)
Section Fill.
Variables (T : Type) (f : nat -> nat -> res T).

Definition body d k (L : seq (seq (option T))) := let! A := f d k in set2 L d k (Some A).

Lemma fill_row d n (L : seq (seq (option T))) j : (d < size L)%N -> size (nth [::] L d) = n -> (j <= n)%N ->
  for_ 0 j (body d) L
  = let! r := mapM (f d) (iota 0 j) in Ok (set_nth [::] L d (map Some r ++ drop j (nth [::] L d))).
Proof.
move=> ld sd; elim: j => [_|j IH lj].
  by rewrite for_geq //= drop0; congr Ok; apply: (@eq_from_nth _ [::]) => [|i li];
    rewrite ?size_set_nth ?nth_set_nth /=; [rewrite (maxn_idPr ld) | case: eqP => // ->].
rewrite for_recr // IH ?(ltnW lj) // -[in RHS]addn1 iotaD add0n /= cats1 mapM_rcons.
case E: (mapM _ _) => [r|e] //; rewrite !bindOk /body; case: (f d j) => //= A.
have sr : size r = j by rewrite (mapM_size E) size_iota.
set row := nth [::] L d in sd *; set L1 := set_nth _ _ _ _.
have s1 : (d < size L1)%N by rewrite size_set_nth leq_max leqnn.
rewrite /set2 (rdE [::]) //= nth_set_nth /= eqxx.
have lw : (j < size (map Some r ++ drop j row))%N by rewrite size_cat size_map sr size_drop sd subnKC // ltnW.
rewrite (wrE _ lw) /= (wrE _ s1); congr Ok.
have -> : set_nth (Some A) (map Some r ++ drop j row) j (Some A) = map Some (rcons r A) ++ drop j.+1 row.
  rewrite (drop_nth None) ?sd // map_rcons cat_rcons.
  by rewrite set_nth_cat // size_map.
by rewrite set_nth_twice // addn1.
Qed.

Lemma fill n m j : (j <= m)%N ->
  for_ 0 j (fun d L => for_ 0 n (body d) L) (nseq m (nseq n None))
  = let! r := mapM (fun d => mapM (f d) (iota 0 n)) (iota 0 j) in
    Ok (map (map Some) r ++ nseq (m - j) (nseq n None)).
Proof.
elim: j => [_|j IH lj]; first by rewrite for_geq //= subn0.
rewrite for_recr // IH ?(ltnW lj) // -[in RHS]addn1 iotaD add0n /= cats1 mapM_rcons.
case E: (mapM _ _) => [r|e] //; rewrite !bindOk.
have sr : size r = j by rewrite (mapM_size E) size_iota.
rewrite addn1 -(subnSK lj) /=.
have lw : (j < size (map (map Some) r ++ nseq n None :: nseq (m - j.+1) (nseq n None)))%N.
  by rewrite size_cat size_map sr /= -addn1 leq_add2l.
have nr : nth [::] (map (map Some) r ++ nseq n None :: nseq (m - j.+1) (nseq n (None : option T))) j = nseq n None.
  by rewrite nth_cat size_map sr ltnn subnn.
rewrite (fill_row (n := n)) ?nr ?size_nseq //.
case: (mapM (f j) _) (@mapM_size _ _ (f j) (iota 0 n)) => //= a /(_ a erefl) sa; congr Ok.
rewrite drop_oversize ?size_nseq // cats0 map_rcons cat_rcons.
by rewrite set_nth_cat // size_map.
Qed.
End Fill.

Section Kernel.
Variable R : rcfType.
Local Notation C := R[i].
Variables (lg : C -> C) (tol eps : R).
Variable svd : forall n, 'M[R]_n.+1 -> 'M[R]_n.+1 * seq R * 'M[R]_n.+1.
Variable eig : forall n, 'M[R]_n -> bool * seq (eigen R).
Variable expm : forall m, 'M[R]_m -> 'M[R]_m.
Local Notation fserie data dt thres nk := (fit_serie lg tol eps svd eig data dt thres nk true).

Lemma fit_kernelE times (K : kernel R) thres nk : (1 < size times)%N ->
  fit_kernel lg tol eps svd eig times K thres nk
  = let! r := mapM (fun d => mapM (fun k => fserie (k_val K k d) (times`_1 - times`_0) thres nk)
                                  (iota 0 (k_basis K))) (iota 0 (k_x K)) in
    Ok (map (map Some) r).
Proof.
move=> st; rewrite /fit_kernel (rdE 0) // (rdE 0) ?(ltn_trans _ st) // !bindOk.
rewrite (fill (fun d k => fserie (k_val K k d) (times`_1 - times`_0) thres nk)) // subnn.
by case: (mapM _ _) => //= r; rewrite cats0.
Qed.

Lemma fit_kernel_short times (K : kernel R) thres nk : (size times <= 1)%N ->
  fit_kernel lg tol eps svd eig times K thres nk = Err OutOfBounds.
Proof. by move=> st; rewrite /fit_kernel rd_oob. Qed.

(** Evaluation. *)
Definition upd (fit : nat -> nat -> seq R) k d c := fun k' d' => if (k' == k) && (d' == d) then c else fit k' d'.

Lemma entry_eval times (s : series R) : size times != 1%N ->
  mapM (entry expm (Some s)) times = series_eval expm times s.1 s.2.
Proof. by case: s => y0 B /negPf st; rewrite /series_eval st. Qed.

Definition step (list_A : seq (seq (option (series R)))) times d k i (fit : nat -> nat -> seq R) : res (nat -> nat -> seq R) :=
  let! t := rd times i in
  let! row := rd list_A d in
  let! A := rd row k in
  let! v := entry expm A t in
  let! c := wr (fit k d) i v in
  Ok (fun k' d' => if (k' == k) && (d' == d) then c else fit k' d').

Lemma eval_inner list_A times d k A (fit fit' : nat -> nat -> seq R) : (d < size list_A)%N ->
  (k < size (nth [::] list_A d))%N -> nth None (nth [::] list_A d) k = A -> size (fit k d) = size times ->
  for_ 0 (size times) (step list_A times d k) fit = Ok fit' ->
  exists2 c, mapM (entry expm A) times = Ok c & forall k' d', fit' k' d' = upd fit k d c k' d'.
Proof.
move=> ld lk EA sf E.
pose Inv i (g : nat -> nat -> seq R) := exists c, [/\ mapM (entry expm A) (take i times) = Ok c,
  size (g k d) = size times, take i (g k d) = c & forall k' d', ~~ ((k' == k) && (d' == d)) -> g k' d' = fit k' d'].
have : Inv (size times) fit'.
  apply: (for_inv (P := Inv) _ _ _ E) => //.
    by exists [::]; split; rewrite ?take0.
  move=> i g g' /= li [c [E1 sg tg H]].
  rewrite /step (rdE 0) // bindOk (rdE [::]) // bindOk (rdE None) // EA bindOk; case Ev: (entry _ _ _) => [v|//].
  rewrite !bindOk; case Ew: (wr _ _ _) => [w|//]; rewrite bindOk => -[<-].
  have [lw sw Hw] := wr_ok 0 Ew.
  exists (rcons c v); split; rewrite ?eqxx /= ?sw //.
  - by rewrite (take_nth 0) // mapM_rcons E1 /= Ev.
  - rewrite (take_nth 0) ?sw ?sg // Hw eqxx; congr rcons; rewrite -tg.
    apply: (@eq_from_nth _ 0) => [|j]; first by rewrite !size_take sw.
    rewrite size_take sw sg li => lj; rewrite !nth_take // Hw.
    by case: eqP => // ej; rewrite ej ltnn in lj.
  - by move=> k' d' ne; rewrite (negPf ne) H.
case=> c [E1 sg tg H]; exists c; first by rewrite -E1 take_size.
move=> k' d'; rewrite /upd; case: (boolP (_ && _)) => [/andP[/eqP -> /eqP ->]|ne]; last exact: H.
by rewrite -tg -sg take_size.
Qed.

Lemma eval_inner_ok list_A times d k A (fit : nat -> nat -> seq R) c : (d < size list_A)%N ->
  (k < size (nth [::] list_A d))%N -> nth None (nth [::] list_A d) k = A -> size (fit k d) = size times ->
  mapM (entry expm A) times = Ok c ->
  exists2 fit', for_ 0 (size times) (step list_A times d k) fit = Ok fit' &
    forall k' d', fit' k' d' = upd fit k d c k' d'.
Proof.
move=> ld lk EA sf Ec.
have : exists2 fit', for_ 0 (size times) (step list_A times d k) fit = Ok fit' & size (fit' k d) = size times.
  apply: (for_ind (P := fun i (g : nat -> nat -> seq R) => size (g k d) = size times)) => // i g /= li sg.
  rewrite /step (rdE 0) // bindOk (rdE [::]) // bindOk (rdE None) // EA bindOk.
  have -> : entry expm A times`_i = Ok c`_i by exact: (mapM_nth _ _ Ec).
  have lw : (i < size (g k d))%N by rewrite sg.
  have [b Eb [sb Hb]] := wr_total 0 c`_i lw.
  by rewrite bindOk Eb; eexists; first reflexivity; rewrite /= !eqxx sb.
case=> fit' E _; exists fit' => //.
by have [c'] := eval_inner ld lk EA sf E; rewrite Ec => -[<-].
Qed.

(** The table of the series. *)
Definition table m n (F : nat -> nat -> series R) : seq (seq (option (series R))) :=
  [seq [seq Some (F d k) | k <- iota 0 n] | d <- iota 0 m].

Lemma table_size m n F : size (table m n F) = m.
Proof. by rewrite size_map size_iota. Qed.

Lemma table_row m n F d : (d < m)%N -> nth [::] (table m n F) d = [seq Some (F d k) | k <- iota 0 n].
Proof. by move=> ld; rewrite (nth_map 0%N) ?size_iota // nth_iota. Qed.

Lemma table_nth m n F d k : (d < m)%N -> (k < n)%N -> nth None (nth [::] (table m n F) d) k = Some (F d k).
Proof. by move=> ld lk; rewrite table_row // (nth_map 0%N) ?size_iota // nth_iota. Qed.

Lemma eval_ok times m n F g : size times != 1%N -> (0 < m)%N ->
  (forall d k, (d < m)%N -> (k < n)%N -> series_eval expm times (F d k).1 (F d k).2 = Ok (g d k)) ->
  exists2 K, kernel_eval expm times (table m n F) = Ok K
    & [/\ k_x K = m, k_basis K = n & forall d k, (d < m)%N -> (k < n)%N -> k_val K k d = g d k].
Proof.
move=> st m0 H; rewrite /kernel_eval (negPf st) (rdE [::]) ?table_size // bindOk.
rewrite table_row // size_map size_iota.
set L := table m n F.
have sl d : (d < m)%N -> size (nth [::] L d) = n by move=> ld; rewrite table_row // size_map size_iota.
pose good (fit : nat -> nat -> seq R) d' k' := if (d' < m)%N && (k' < n)%N then fit k' d' = g d' k' else True.
pose shape (fit : nat -> nat -> seq R) := forall k' d', (d' < m)%N -> (k' < n)%N -> size (fit k' d') = size times.
pose Inv D fit := shape fit /\ forall d k, (d < D)%N -> (d < m)%N -> (k < n)%N -> fit k d = g d k.
have sg d k : (d < m)%N -> (k < n)%N -> size (g d k) = size times.
  by move=> ld lk; have := H d k ld lk; rewrite /series_eval (negPf st) => /mapM_size.
set bd := (X in for_ _ _ X).
have [//|||fit -> [_ HI]] := @for_ind _ Inv 0 m bd (fun _ _ => nseq (size times) 0).
- by split=> // k' d' _ _; rewrite size_nseq.
- move=> d f1 /= ld [s1 H1].
  pose Inv2 K fit := shape fit /\ forall d' k, (d' < m)%N -> (k < n)%N -> (d' < d)%N || ((d' == d) && (k < K)%N) -> fit k d' = g d' k.
  rewrite /bd; set b2 := (X in for_ _ _ X _).
  have [//|||f2 E2 [s2 H2]] := @for_ind _ Inv2 0 n b2 f1.
  + by split=> // d' k ld' lk; rewrite ltn0 andbF orbF => h; exact: H1.
  + move=> k f3 /= lk [s3 H3].
    have ll : (d < size L)%N by rewrite table_size.
    have lr : (k < size (nth [::] L d))%N by rewrite sl.
    have Ec : mapM (entry expm (Some (F d k))) times = Ok (g d k) by rewrite entry_eval // H.
    have [f4 E4 H4] := eval_inner_ok ll lr (table_nth F ld lk) (s3 _ _ ld lk) Ec.
    exists f4; first exact: E4.
    split=> [k' d' ld' lk'|d' k' ld' lk' c]; rewrite H4 /upd.
      by case: ifP => _; [exact: sg | exact: s3].
    case: (boolP (_ && _)) => [/andP[/eqP -> /eqP ->]//|ne]; apply: H3 => //.
    case/orP: c => [->//|/andP[/eqP e]]; rewrite e eqxx andbT ltnn /= ltnS leq_eqVlt in ne *.
    by rewrite (negPf ne).
  + exists f2; first exact: E2.
    split=> // d' k; rewrite ltnS leq_eqVlt => c ld' lk; apply: H2 => //.
    by case/orP: c => [/eqP ->|->//]; rewrite eqxx lk orbT.
- by eexists; first reflexivity; split=> // d k ld lk; apply: HI.
Qed.

Lemma eval_inv times m n F K : kernel_eval expm times (table m n F) = Ok K ->
  [/\ size times != 1%N, (0 < m)%N, k_x K = m, k_basis K = n
    & forall d k, (d < m)%N -> (k < n)%N -> series_eval expm times (F d k).1 (F d k).2 = Ok (k_val K k d)].
Proof.
rewrite /kernel_eval; case: ifP => // /negbT st.
case: m => [//|m]; rewrite (rdE [::]) ?table_size // bindOk table_row // size_map size_iota.
set L := table m.+1 n F; case E: (for_ _ _ _ _) => [fit|//]; rewrite bindOk => -[<-].
split=> // d k ld lk; rewrite /=.
have sl d' : (d' < m.+1)%N -> size (nth [::] L d') = n by move=> ld'; rewrite table_row // size_map size_iota.
pose shape (fit : nat -> nat -> seq R) := forall k' d', size (fit k' d') = size times.
pose good (fit : nat -> nat -> seq R) d' k' := series_eval expm times (F d' k').1 (F d' k').2 = Ok (fit k' d').
pose Inv D fit := shape fit /\ forall d k, (d < D)%N -> (d < m.+1)%N -> (k < n)%N -> good fit d k.
suff [_ h] : Inv m.+1 fit by exact: h.
apply: (for_inv (P := Inv) _ _ _ E) => //; first by split=> // k' d'; rewrite size_nseq.
move=> d1 f1 f2 /= ld1 [s1 H1] E2.
pose Inv2 K' fit := shape fit /\ forall d' k, (d' < m.+1)%N -> (k < n)%N -> (d' < d1)%N || ((d' == d1) && (k < K')%N) -> good fit d' k.
have : Inv2 n f2.
  apply: (for_inv (P := Inv2) _ _ _ E2) => //.
    by split=> // d' k' ld' lk'; rewrite ltn0 andbF orbF => h; exact: H1.
  move=> k1 f3 f4 /= lk1 [s3 H3] E4.
  have ll : (d1 < size L)%N by rewrite table_size.
  have lr : (k1 < size (nth [::] L d1))%N by rewrite sl.
  have [c Ec H4] := eval_inner ll lr (table_nth F ld1 lk1) (s3 k1 d1) E4.
  split=> [k' d'|d' k' ld' lk' h]; rewrite /good H4 /upd.
    by case: ifP => _; [rewrite (mapM_size Ec) | exact: s3].
  case: (boolP (_ && _)) => [/andP[/eqP -> /eqP ->]//|ne].
    by rewrite -entry_eval.
  apply: H3 => //.
  case/orP: h => [->//|/andP[/eqP e]]; rewrite e eqxx andbT ltnn /= ltnS leq_eqVlt in ne *.
  by rewrite (negPf ne).
case=> s2 H2; split=> // d' k'; rewrite ltnS leq_eqVlt => c ld' lk'; apply: H2 => //.
by case/orP: c => [/eqP ->|->//]; rewrite eqxx lk' orbT.
Qed.

End Kernel.
