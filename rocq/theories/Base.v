(** * Common vocabulary: results, bounds-checked arrays, loops.

    None of this is domain specific: it is the small imperative language in which
    the Fortran routines and the numpy code of /repo are transcribed. *)
From mathcomp Require Import all_ssreflect all_algebra.
From mathcomp Require Import zify.
Set Implicit Arguments.
Unset Strict Implicit.
Unset Printing Implicit Defensive.

(** Failures of the real code, as values. [Singular] is the Fortran
    [stop 'Matrix is numerically singular!'] (fkernel.f90:25) or
    [numpy.linalg.LinAlgError]; [OutOfBounds] is an array access outside the
    declared bounds (undefined behaviour in compiled Fortran, [IndexError] in
    numpy); [ShapeMismatch] is an f2py/numpy/xarray dimension error; the others
    are the Python exceptions of the same name ([Documented] is the explicit
    [raise Exception("...")] of the package). *)
Inductive err : Type :=
  | Singular | OutOfBounds | ShapeMismatch
  | ValueError | KeyError | AttributeError | TypeError | UnboundLocalError
  | ZeroDivision | NotImplemented | NotFitted | Documented.

Inductive res (A : Type) : Type := Ok of A | Err of err.
Arguments Ok {A} _.
Arguments Err {A} _.

Definition bind A B (x : res A) (f : A -> res B) : res B :=
  match x with Ok a => f a | Err e => Err e end.

Notation "'let!' x ':=' e 'in' f" := (bind e (fun x => f))
  (at level 200, x pattern, e at level 100, f at level 200,
   format "'let!'  x  ':='  e  'in' '//' f").

Definition is_ok A (x : res A) : bool := if x is Ok _ then true else false.

(** [guard b e]: raise [e] unless [b]. *)
Definition guard (b : bool) (e : err) : res unit := if b then Ok tt else Err e.

Section Arrays.
Variable T : Type.

(** Bounds-checked read [a(i)] (0-based). *)
Fixpoint rd (a : seq T) (i : nat) : res T :=
  match a, i with
  | [::], _ => Err OutOfBounds
  | x :: _, 0 => Ok x
  | _ :: a', i'.+1 => rd a' i'
  end.

(** Bounds-checked write [a(i) = x]. *)
Fixpoint wr (a : seq T) (i : nat) (x : T) : res (seq T) :=
  match a, i with
  | [::], _ => Err OutOfBounds
  | _ :: a', 0 => Ok (x :: a')
  | y :: a', i'.+1 => let! a'' := wr a' i' x in Ok (y :: a'')
  end.

(** Fortran array section [a(lo:hi)] (both ends included); a section with
    [hi < lo] is empty and always legal. *)
Definition slice (a : seq T) (lo hi : nat) : res (seq T) :=
  if lo <= hi then
    if hi < size a then Ok (drop lo (take hi.+1 a)) else Err OutOfBounds
  else Ok [::].

End Arrays.

(** [for_ lo hi body s]: Fortran [do i = lo, hi-1] / Python [range(lo, hi)]. *)
Fixpoint forM S (l : seq nat) (body : nat -> S -> res S) (s : S) : res S :=
  if l is i :: l' then let! s' := body i s in forM l' body s' else Ok s.

Definition for_ S (lo hi : nat) (body : nat -> S -> res S) (s : S) : res S :=
  forM (iota lo (hi - lo)) body s.

(** Map with failure, left to right. *)
Fixpoint mapM A B (f : A -> res B) (l : seq A) : res (seq B) :=
  if l is x :: l' then
    let! y := f x in let! ys := mapM f l' in Ok (y :: ys)
  else Ok [::].

(** Number of elements of the Python slice [a[start:stop:step]] with
    [0 <= start], [stop <= len a] (CPython [PySlice_AdjustIndices]). *)
Definition slice_len (start stop step : nat) : nat :=
  if start < stop then ((stop - start).-1 %/ step).+1 else 0.

(** ** Facts *)
Section ArrayFacts.
Variable T : Type.
Implicit Types (a : seq T) (x : T).

Lemma rdE x0 a i : i < size a -> rd a i = Ok (nth x0 a i).
Proof. by elim: a i => [|y a IH] [|i] //= /IH. Qed.

Lemma rd_oob a i : size a <= i -> rd a i = Err OutOfBounds.
Proof. by elim: a i => [|y a IH] [|i] //= /IH. Qed.

Lemma rd_ok x0 a i x : rd a i = Ok x -> i < size a /\ x = nth x0 a i.
Proof.
case: (ltnP i (size a)) => [lt|le]; last by rewrite rd_oob.
by rewrite (rdE x0 lt) => -[<-].
Qed.

Lemma wrE a i x : i < size a -> wr a i x = Ok (set_nth x a i x).
Proof. by elim: a i => [|y a IH] [|i] //= /IH ->. Qed.

Lemma wr_oob a i x : size a <= i -> wr a i x = Err OutOfBounds.
Proof. by elim: a i => [|y a IH] [|i] //= /IH ->. Qed.

Lemma wr_ok x0 a i x b :
  wr a i x = Ok b ->
  [/\ i < size a, size b = size a
    & forall j, nth x0 b j = if j == i then x else nth x0 a j].
Proof.
elim: a i b => [|y a IH] [|i] b //=; first by case=> <-; split=> // -[|j].
case E: (wr a i x) => [c|e] //= [<-].
have [lt sz H] := IH _ _ E; split=> //=; first by rewrite sz.
by case=> [|j] //=; rewrite H eqSS.
Qed.

Lemma wr_total x0 a i x :
  i < size a ->
  exists2 b, wr a i x = Ok b &
    size b = size a /\ forall j, nth x0 b j = if j == i then x else nth x0 a j.
Proof.
move=> lt; have E := wrE x lt.
by have [_ sz H] := wr_ok x0 E; exists (set_nth x a i x).
Qed.

Lemma sliceE a lo hi : lo <= hi -> hi < size a -> slice a lo hi = Ok (drop lo (take hi.+1 a)).
Proof. by rewrite /slice => -> ->. Qed.

Lemma nth_slice x0 a lo hi j :
  hi < size a -> j <= hi - lo -> lo <= hi ->
  nth x0 (drop lo (take hi.+1 a)) j = nth x0 a (lo + j).
Proof.
move=> lt le le'; rewrite nth_drop nth_take // ltnS -(subnKC le').
by rewrite leq_add2l.
Qed.

Lemma size_slice a lo hi :
  hi < size a -> lo <= hi -> size (drop lo (take hi.+1 a)) = (hi - lo).+1.
Proof.
by move=> lt le; rewrite size_drop size_takel // subSn.
Qed.

End ArrayFacts.

Section LoopFacts.
Variable S : Type.

Lemma forM_cat l1 l2 body (s : S) :
  forM (l1 ++ l2) body s = let! s' := forM l1 body s in forM l2 body s'.
Proof.
elim: l1 s => [|i l1 IH] s //=.
by case: (body i s) => [s'|e] //=.
Qed.

Lemma for_geq lo hi body (s : S) : hi <= lo -> for_ lo hi body s = Ok s.
Proof. by rewrite /for_ -subn_eq0 => /eqP ->. Qed.

Lemma for_recr lo hi body (s : S) :
  lo <= hi ->
  for_ lo hi.+1 body s = let! s' := for_ lo hi body s in body hi s'.
Proof.
move=> le; rewrite /for_ subSn // -addn1 iotaD forM_cat /= subnKC //.
by case: (forM _ _ _) => //= s'; case: (body _ _).
Qed.

(** Total-correctness rule. *)
Lemma for_ind (P : nat -> S -> Prop) lo hi body (s : S) :
  lo <= hi -> P lo s ->
  (forall i s, lo <= i < hi -> P i s -> exists2 s', body i s = Ok s' & P i.+1 s') ->
  exists2 s', for_ lo hi body s = Ok s' & P hi s'.
Proof.
move=> le P0 step.
have {}step n : lo <= n <= hi -> exists2 s', for_ lo n body s = Ok s' & P n s'.
  elim: n => [|n IH] /andP[len ltn].
    by move: len; rewrite leqn0 => /eqP E; rewrite for_geq -?E //; exists s; rewrite // -E.
  move: len; rewrite leq_eqVlt => /orP[/eqP<-|]; first by rewrite for_geq //; exists s.
  rewrite ltnS => len.
  have [|s1 E P1] := IH; first by rewrite len ltnW.
  have [|s2 E2 P2] := step n s1 _ P1; first by rewrite len.
  by exists s2; rewrite // for_recr // E.
by apply: step; rewrite le leqnn.
Qed.

(** Partial-correctness rule. *)
Lemma for_inv (P : nat -> S -> Prop) lo hi body (s s' : S) :
  lo <= hi -> P lo s ->
  (forall i s s', lo <= i < hi -> P i s -> body i s = Ok s' -> P i.+1 s') ->
  for_ lo hi body s = Ok s' -> P hi s'.
Proof.
move=> le P0 step.
have {}step n t : lo <= n <= hi -> for_ lo n body s = Ok t -> P n t.
  elim: n t => [|n IH] t /andP[len ltn].
    by move: len; rewrite leqn0 => /eqP E; rewrite for_geq -?E // => -[<-].
  move: len; rewrite leq_eqVlt => /orP[/eqP<-|]; first by rewrite for_geq // => -[<-].
  rewrite ltnS => len; rewrite for_recr //.
  case E: (for_ lo n body s) => [s1|e] //= E2.
  apply: (step n s1) => //; first by rewrite len.
  by apply: IH => //; rewrite len ltnW.
by apply: step; rewrite le leqnn.
Qed.

End LoopFacts.

Lemma bind_ok A B (x : res A) (f : A -> res B) b :
  bind x f = Ok b -> exists2 a, x = Ok a & f a = Ok b.
Proof. by case: x => //= a E; exists a. Qed.

(** [unbind H a E]: split [H : bind x f = Ok b] into [E : x = Ok a] and
    [H : f a = Ok b]. *)
Ltac unbind H a E :=
  match type of H with
  | @bind ?A ?B ?x ?f = Ok ?b =>
      let H' := fresh in
      destruct (@bind_ok A B x f b H) as [a E H'];
      clear H; rename H' into H; cbv beta in H
  end.

(** [size s] may carry convertible but different element types (structure
    inference); [slia] makes them syntactically equal before calling [lia]. *)
Ltac nsize :=
  repeat match goal with
  | H : context [@size ?T ?s] |- _ =>
      match type of s with
      | list ?U => first [constr_eq T U; fail 1 | change (@size T s) with (@size U s) in H]
      end
  | |- context [@size ?T ?s] =>
      match type of s with
      | list ?U => first [constr_eq T U; fail 1 | change (@size T s) with (@size U s)]
      end
  end.
Ltac slia := nsize; lia.
