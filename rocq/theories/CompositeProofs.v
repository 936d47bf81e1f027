(** * Combined and tensor bases: lemmas. *)
From Coq Require Import Reals Lra Lia.
From Coquelicot Require Import Coquelicot.
From mathcomp Require Import all_ssreflect zify.
From Verif Require Import Base Colored ColoredProofs ColoredProofs3 ColoredProofs4 Basis Calculus BasisProofs BasisVector BasisVectorProofs.
Set Implicit Arguments.
Unset Strict Implicit.
Unset Printing Implicit Defensive.
Local Open Scope R_scope.

(** ** Combiner *)
(** The values: every basis contributes its columns, in order. *)
Lemma foldl_cat_width o os x : (foldl (fun f b => cat_arr f (fn b x)) (fn o x) os).1 = sumn (map (fun b => (fn b x).1) (o :: os)).
Proof.
rewrite /=; move: (fn o x) => a.
by elim: os a => [|b os IH] a /=; [rewrite addn0 | rewrite IH /= addnA].
Qed.
Lemma foldl_cat_old a os x idx : (head 0 idx < a.1)%N -> (foldl (fun f b => cat_arr f (fn b x)) a os).2 idx = a.2 idx.
Proof. by elim: os a => //= b os IH a la; rewrite IH /= ?la //; lia. Qed.
Lemma combiner_columns os x j k o0 : (j < size os)%N -> (k < (fn (nth o0 os j) x).1)%N ->
  exists2 B, combiner_basis os x = Ok B &
  B.1 = sumn (map (fun b => (fn b x).1) os) /\
  B.2 [:: (sumn (map (fun b => (fn b x).1) (take j os)) + k)%N] = (fn (nth o0 os j) x).2 [:: k].
Proof.
case: os => // o os lj lk; exists (foldl (fun f b => cat_arr f (fn b x)) (fn o x) os) => //.
split; first exact: foldl_cat_width.
case: j lj lk => [|j] lj lk; first by rewrite /= add0n foldl_cat_old.
rewrite [take _ _]/= [nth _ _ _]/= in lk *; rewrite [map _ _]/= [sumn _]/=; move: lj; rewrite /= ltnS => lj.
move: (fn o x) => a {o}; elim: os j a lj lk => // b os IH [|j] a lj lk.
  rewrite /= addn0 foldl_cat_old /=; last by rewrite ltn_add2l.
  by rewrite ltnNge leq_addr /= addKn.
by rewrite /= addnA; have := IH j (cat_arr a (fn b x)); rewrite /=; apply.
Qed.

(** The derivatives: first and last basis only, whatever their number. *)
Lemma combiner_deriv_ends o os x l : combiner_deriv (o :: rcons os l) x = Ok (cat_arr (deriv o x) (deriv l x)).
Proof. by rewrite /combiner_deriv /combiner_loop -cats1 foldl_cat. Qed.
Lemma combiner_one o x : combiner_deriv [:: o] x = Err UnboundLocalError.
Proof. by []. Qed.

Definition cat_col (n1 w1 : nat) (col1 col2 : nat -> nat) (k : nat) : nat :=
  if (k < n1)%N then col1 k else (w1 + col2 (k - n1))%N.
Lemma combiner_two dim o1 o2 n1 n2 w1 col1 col2 :
  (forall x, (fn o1 x).1 = w1) -> (forall k, (k < n1)%N -> (col1 k < w1)%N) ->
  diff_obj dim o1 (flag o1) n1 col1 -> diff_obj dim o2 (flag o2) n2 col2 ->
  exists B D, [/\ forall x, combiner_basis [:: o1; o2] x = Ok (B x),
    forall x, combiner_deriv [:: o1; o2] x = Ok (D x),
    forall x, (D x).1 = (n1 + n2)%N &
    forall k, (k < n1 + n2)%N ->
      has_gradient dim (fun y => (B y).2) (fun y => (D y).2) (cat_col n1 w1 col1 col2 k) k [::]].
Proof.
move=> W1 C1 [E1 H1] [E2 H2].
exists (fun x => cat_arr (fn o1 x) (fn o2 x)), (fun x => cat_arr (deriv o1 x) (deriv o2 x)).
split=> // [x|k lk x]; first by rewrite /= E1 E2.
rewrite /cat_col; case h: (k < n1)%N.
  apply: (gradient_ext _ _ (H1 k h x)) => [y|i li] /=; first by rewrite W1 C1.
  by rewrite E1 h.
have lk2 : (k - n1 < n2)%N by lia.
apply: (gradient_ext _ _ (H2 _ lk2 x)) => [y|i li] /=; last by rewrite E1 h.
by rewrite W1 ltnNge leq_addr /= addKn.
Qed.

(** ** Tensor basis *)
Lemma comb_split n1 n2 i j k : comb_indices n1 n2 i j = Ok k <-> split_index n1 n2 k = Ok (i, j).
Proof.
rewrite /comb_indices /split_index; split.
  case: andP => // -[li lj] [<-].
  rewrite divnMDl ?divn_small ?addn0; try lia.
  rewrite modnMDl modn_small // ifT //.
  by apply: leq_trans (_ : i.+1 * n2 <= _)%N; [rewrite mulSn; lia | rewrite leq_mul2r li orbT].
case: ltnP => // lk [<- <-].
have n20 : (0 < n2)%N by case: n2 lk => //; rewrite muln0.
by rewrite ltn_divLR // lk ltn_pmod //= -divn_eq.
Qed.
Lemma comb_range n1 n2 i j k : comb_indices n1 n2 i j = Ok k -> (k < n1 * n2)%N.
Proof. by move=> /comb_split; rewrite /split_index; case: ltnP. Qed.
Lemma comb_defined n1 n2 i j : (i < n1)%N -> (j < n2)%N -> exists2 k, comb_indices n1 n2 i j = Ok k & (k < n1 * n2)%N.
Proof. by move=> li lj; exists (i * n2 + j)%N; [|apply: (@comb_range _ _ i j)]; rewrite /comb_indices li lj. Qed.
Lemma split_defined n1 n2 k : (k < n1 * n2)%N -> exists i j, split_index n1 n2 k = Ok (i, j) /\ (i < n1)%N /\ (j < n2)%N.
Proof.
move=> lk; exists (k %/ n2)%N, (k %% n2)%N; rewrite /split_index lk.
have n20 : (0 < n2)%N by case: n2 lk => //; rewrite muln0.
by rewrite ltn_divLR // lk ltn_pmod.
Qed.

Section Tensor.
Variables (b1 b2 : obj) (n1 n2 : nat).
Hypothesis W1 : forall x, (fn b1 x).1 = n1.
Hypothesis W2 : forall x, (fn b2 x).1 = n2.
Let c1 := (tensor_init b1 b2).1.
Let c2 := (tensor_init b1 b2).2.

Lemma tensor_column x i j k : comb_indices n1 n2 i j = Ok k ->
  (tensor_basis c1 c2 x).1 = (n1 * n2)%N /\
  (tensor_basis c1 c2 x).2 [:: k] = (fn b1 (coord 0 x)).2 [:: i] * (fn b2 (coord 1 x)).2 [:: j].
Proof.
move=> /comb_split; rewrite /split_index; case: ltnP => // lk [<- <-].
by rewrite /tensor_basis /outer /= W1 W2.
Qed.

Hypothesis D1 : diff_obj 1 b1 false n1 id.
Hypothesis D2 : diff_obj 1 b2 false n2 id.

Lemma tensor_gradient : exists2 D, forall x, tensor_deriv c1 c2 x = Ok (D x) &
  forall x, (D x).1 = (n1 * n2)%N /\ forall k, (k < n1 * n2)%N ->
  gradient_at 2 (fun y => (tensor_basis c1 c2 y).2 [:: k]) x (fun d => (D x).2 [:: k; d]).
Proof.
case: D1 D2 => [E1 G1] [E2 G2].
exists (fun x => cat_axis 0 (outer id none (dfn b1 false (coord 0 x)) (fn b2 (coord 1 x)))
                            (outer none id (fn b1 (coord 0 x)) (dfn b2 false (coord 1 x)))).
  by move=> x; rewrite /tensor_deriv /deriv /= W1 W2 E1 E2 eqxx.
move=> x; split; first by rewrite /= E1 W2.
move=> k lk; have [i [j [Es [li lj]]]] := split_defined lk.
move: Es; rewrite /split_index lk => -[Ei Ej].
have P1 := @gradient_lift 2 0 _ x _ (ltn0Sn _) (G1 i li (coord 0 x)).
have P2 := @gradient_lift 2 1 _ x _ (ltnSn _) (G2 j lj (coord 1 x)).
apply: (gradient_ext _ _ (gradient_mult P1 P2)) => [y|d ld]; first by rewrite /= W2 Ei Ej.
case: d ld => [|[|//]] _ /=.
  by rewrite W2 Ei Ej /none /fst1 /snd1 /coord /=; ring.
by rewrite E2 Ei Ej /none /fst1 /snd1 /coord /=; ring.
Qed.

Hypothesis T1 : twice_obj 1 b1 false n1.
Hypothesis T2 : twice_obj 1 b2 false n2.
Lemma tensor_hessian_gradient : exists D H, [/\ forall x, tensor_deriv c1 c2 x = Ok (D x),
  forall x, tensor_hessian c1 c2 x = Ok (H x),
  forall x, (H x).1 = (n1 * n2)%N,
  forall x k d, (k < n1 * n2)%N -> (d < 2)%N ->
    gradient_at 2 (fun y => (D y).2 [:: k; d]) x (fun e => (H x).2 [:: k; d; e]) &
  forall x k d e, (k < n1 * n2)%N -> (d < 2)%N -> (e < 2)%N -> (H x).2 [:: k; d; e] = (H x).2 [:: k; e; d]].
Proof.
case: D1 D2 T1 T2 => [E1 G1] [E2 G2] [F1 H1] [F2 H2].
pose H1x x := outer none id (fn b1 (coord 0 x)) (hfn b2 false (coord 1 x)).
pose Hcx x := outer fst1 snd1 (dfn b1 false (coord 0 x)) (dfn b2 false (coord 1 x)).
pose H2x x := outer id none (hfn b1 false (coord 0 x)) (fn b2 (coord 1 x)).
exists (fun x => cat_axis 0 (outer id none (dfn b1 false (coord 0 x)) (fn b2 (coord 1 x)))
                            (outer none id (fn b1 (coord 0 x)) (dfn b2 false (coord 1 x)))),
       (fun x => cat_axis 1 (cat_axis 0 (H2x x) (Hcx x)) (cat_axis 0 (Hcx x) (H1x x))).
split.
- by move=> x; rewrite /tensor_deriv /deriv /= W1 W2 E1 E2 eqxx.
- by move=> x; rewrite /tensor_hessian /deriv /hessian /= W1 W2 E1 E2 F1 F2 !eqxx.
- by move=> x; rewrite /= F1 W2.
- move=> x k d lk ld; have [i [j [Es [li lj]]]] := split_defined lk.
  move: Es; rewrite /split_index lk => -[Ei Ej].
  have P1 := @gradient_lift 2 0 _ x _ (ltn0Sn _) (G1 i li (coord 0 x)).
  have P2 := @gradient_lift 2 1 _ x _ (ltnSn _) (G2 j lj (coord 1 x)).
  have Q1 := @gradient_lift 2 0 _ x _ (ltn0Sn _) (H1 i 0%N li (ltn0Sn _) (coord 0 x)).
  have Q2 := @gradient_lift 2 1 _ x _ (ltnSn _) (H2 j 0%N lj (ltn0Sn _) (coord 1 x)).
  case: d ld => [|[|//]] _.
    apply: (gradient_ext _ _ (gradient_mult Q1 P2)) => [y|e le]; first by rewrite /= W2 Ei Ej.
    case: e le => [|[|//]] _; rewrite /H1x /H2x /Hcx /=.
      by rewrite W2 Ei Ej /none /fst1 /snd1 /coord /=; ring.
    by rewrite E2 Ei Ej /none /fst1 /snd1 /coord /=; ring.
  apply: (gradient_ext _ _ (gradient_mult P1 Q2)) => [y|e le]; first by rewrite /= E2 Ei Ej.
  case: e le => [|[|//]] _; rewrite /H1x /H2x /Hcx /=.
    by rewrite E2 Ei Ej /none /fst1 /snd1 /coord /=; ring.
  by rewrite F2 Ei Ej /none /fst1 /snd1 /coord /=; ring.
- by move=> x k [|[|//]] [|[|//]] // lk _ _.
Qed.
End Tensor.

Lemma tensor_fit_own D (d0 d1 : D) l1 l2 s : l1 <> l2 ->
  exists2 s', tensor_fit [:: d0; d1] l1 (Some l2) s = Ok s' & s' l1 = Some d0 /\ s' l2 = Some d1.
Proof.
move=> ne; exists (write (write s l1 d0) l2 d1) => //; rewrite /write !eqxx.
by case: (l1 =P l2) => // e; case: (ne e).
Qed.
Lemma tensor_fit_alias D (d0 d1 : D) l1 s :
  exists2 s', tensor_fit [:: d0; d1] l1 None s = Ok s' & s' l1 = Some d1.
Proof. by exists (write (write s l1 d0) l1 d1) => //; rewrite /write eqxx. Qed.
