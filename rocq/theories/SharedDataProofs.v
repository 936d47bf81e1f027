(** * Proofs for trajectories shared by estimators. *)
From Coq Require Import String.
From mathcomp Require Import all_ssreflect.
From Verif Require Import Base EstimatorProofs SharedData.
Set Implicit Arguments.
Unset Strict Implicit.
Unset Printing Implicit Defensive.
Local Open Scope string_scope.

Section Proofs.
Variables (V B F : Type).
Variable reads : B -> seq string.
Variable dEf : B -> seq V -> V.
Variable cols : V -> nat.
Variable fit : B -> seq (seq V * V) -> res F.
Implicit Types (h : heap V) (e : estimator B F) (rs : seq nat).
Local Notation est := (estimator B F).
Local Notation gloop := (gfpe_loop reads dEf).
Local Notation gfpe := (to_gfpe reads dEf cols).
Local Notation ecall := (est_call reads dEf cols fit).
Local Notation run := (run reads dEf cols fit).

Lemma update_eq h r name v : update h r name v r name = Some v.
Proof. by rewrite /update eqxx String.eqb_refl. Qed.

Lemma update_ne h r name v r' n : r' <> r \/ n <> name -> update h r name v r' n = h r' n.
Proof.
rewrite /update => H; case: eqP => //= e; case: (String.eqb_spec n name) => // e2.
by case: H => [/(_ e)|/(_ e2)].
Qed.

Lemma mapM_ext A C (f g : A -> res C) l : (forall x, List.In x l -> f x = g x) -> mapM f l = mapM g l.
Proof.
elim: l => //= x l IH H; rewrite (H x) ?IH //; first by move=> y yl; apply: H; right.
by left.
Qed.

Lemma basis_dE_ext b (d d' : dataset V) : (forall n, List.In n (reads b) -> d n = d' n) ->
  basis_dE reads dEf b d = basis_dE reads dEf b d'.
Proof.
move=> H; rewrite /basis_dE (@mapM_ext _ _ (get d) (get d')) // => n nr; by rewrite /get H.
Qed.

(** Frame. *)
Lemma loop_frame h rs b name last h' res r n : gloop h rs b name last = (h', res) ->
  ~ (r \in rs) \/ n <> name -> h' r n = h r n.
Proof.
elim: rs h last => [|q rs IH] h last /=; first by case=> <-.
case: (basis_dE _ _ _ _) => [v|x]; last by case=> <-.
move=> E H; rewrite (IH _ _ E).
  apply: update_ne; case: H => [H|]; [left|by right].
  by move=> e; apply: H; rewrite e inE eqxx.
by case: H => [H|]; [left => rin; apply: H; rewrite inE rin orbT | right].
Qed.

(** The values written. *)
Lemma loop_values h rs b name last h' l : ~ List.In name (reads b) -> gloop h rs b name last = (h', Ok l) ->
  (forall r, r \in rs -> exists2 v, basis_dE reads dEf b (h r) = Ok v & h' r name = Some v) /\
  (if rs is q :: rs' then exists2 v, basis_dE reads dEf b (h (seq.last q rs')) = Ok v & l = Some v else l = last).
Proof.
move=> nr; elim: rs h last => [|q rs IH] h last /=; first by case=> _ <-.
case Ev: (basis_dE _ _ _ _) => [v|x] // E.
have same r : basis_dE reads dEf b (update h q name v r) = basis_dE reads dEf b (h r).
  by apply: basis_dE_ext => n nin; rewrite update_ne //; right => e; rewrite e in nin.
have [H1 H2] := IH _ _ E; split.
  move=> r; rewrite inE => /orP[/eqP ->|rin]; last by have := H1 r rin; rewrite same.
  case: (boolP (q \in rs)) => [/H1|qn]; first by rewrite same.
  exists v => //; rewrite (loop_frame E (r := q) (n := name)) ?update_eq //; by left; apply/negP.
by case: (rs) H2 => [->|q' rs']; [exists v | rewrite same].
Qed.

Lemma loop_ok h rs b name last : ~ List.In name (reads b) ->
  (forall r, r \in rs -> exists v, basis_dE reads dEf b (h r) = Ok v) ->
  exists h' l, gloop h rs b name last = (h', Ok l).
Proof.
move=> nr; elim: rs h last => [|q rs IH] h last H /=; first by exists h, last.
have [v Ev] := H q (mem_head _ _); rewrite Ev; apply: IH => r rin.
have [w Ew] := H r (mem_behead (s := q :: rs) rin); exists w; rewrite -Ew.
by apply: basis_dE_ext => n nin; rewrite update_ne //; right => e; rewrite e in nin.
Qed.

Lemma loop_fail h rs b name last : ~ List.In name (reads b) -> forall r x, r \in rs ->
  basis_dE reads dEf b (h r) = Err x -> exists h' x', gloop h rs b name last = (h', Err x').
Proof.
move=> nr r x; elim: rs h last => [|q rs IH] h last //=.
case Eq: (basis_dE reads dEf b (h q)) => [v|y]; last by exists h, y.
rewrite inE => /orP[/eqP ->|rin] Ex; first by rewrite Eq in Ex.
apply: IH => //; rewrite -Ex.
by apply: basis_dE_ext => n nin; rewrite update_ne //; right => e; rewrite e in nin.
Qed.

(** Two heaps agreeing on the variables that matter. *)
Definition agree (T : seq nat) (N : string -> Prop) h h' := forall r n, r \in T -> N n -> h r n = h' r n.

Lemma loop_agree T (N : string -> Prop) h1 h2 rs b name last : {subset rs <= T} ->
  (forall n, List.In n (reads b) -> N n) -> agree T N h1 h2 ->
  [/\ (gloop h1 rs b name last).2 = (gloop h2 rs b name last).2
    & agree T N (gloop h1 rs b name last).1 (gloop h2 rs b name last).1].
Proof.
move=> sub Hr; elim: rs h1 h2 last sub => [|q rs IH] h1 h2 last sub H //=.
have -> : basis_dE reads dEf b (h1 q) = basis_dE reads dEf b (h2 q).
  by apply: basis_dE_ext => n /Hr Nn; apply: H => //; apply: sub; rewrite mem_head.
case: (basis_dE _ _ _ _) => [v|x] //; apply: IH => [r rin|r n rT Nn].
  by apply: sub; rewrite inE rin orbT.
by rewrite /update; case: ifP => // _; exact: H.
Qed.

Lemma mean_force_agree (N : string -> Prop) h1 h2 e : (forall n, List.In n (reads (e_basis e)) -> N n) ->
  N (e_L_obs e) -> agree (e_trajs e) N h1 h2 -> mean_force reads fit h1 e = mean_force reads fit h2 e.
Proof.
move=> Hr Ho H; rewrite /mean_force.
rewrite (@mapM_ext _ _ _ (fun r => let! vs := mapM (get (h2 r)) (reads (e_basis e)) in
   let! o := get (h2 r) (e_L_obs e) in Ok (vs, o))) // => r rin.
have rT : r \in e_trajs e by elim: (e_trajs e) rin => //= a l IH [->|/IH]; rewrite inE ?eqxx // => ->; rewrite orbT.
rewrite (@mapM_ext _ _ (get (h1 r)) (get (h2 r))); last by move=> n /Hr Nn; rewrite /get H.
by rewrite /get H.
Qed.

(** Trajectories and basis never change. *)
Lemma call_fixed h e c h' e' r : ecall h e c = (h', e', r) -> e_trajs e' = e_trajs e /\ e_basis e' = e_basis e.
Proof.
case: c => [m name|] /=.
  by rewrite /to_gfpe; case: (gfpe_loop _ _ _ _ _ _ _) => h1 [[v|]|x] [_ <- _].
rewrite /mean_force; case: (mapM _ (e_trajs e)) => [l|x]; last by case=> _ <- _.
by case: (fit _ _) => [f|x] [_ <- _].
Qed.

Definition call_model e (c : call B) : B := if c is ToGfpe (Some b) _ then b else e_basis e.

Lemma call_agree (N : string -> Prop) h1 h2 e c :
  (forall n, List.In n (reads (e_basis e)) -> N n) -> (forall n, List.In n (reads (call_model e c)) -> N n) ->
  N (e_L_obs e) -> agree (e_trajs e) N h1 h2 ->
  [/\ (ecall h1 e c).1.2 = (ecall h2 e c).1.2, (ecall h1 e c).2 = (ecall h2 e c).2
    & agree (e_trajs e) N (ecall h1 e c).1.1 (ecall h2 e c).1.1].
Proof.
move=> Hr Hm Ho H; case: c Hm => [m name|] Hm /=; last first.
  by rewrite (mean_force_agree Hr Ho H); case: (mean_force _ _ _ _).
rewrite /to_gfpe; set b := if m is Some b then b else _.
have Hb n : List.In n (reads b) -> N n by move: (Hm n); rewrite /call_model /b; case: (m).
have [E A] := loop_agree name None (fun r rin => rin : r \in e_trajs e) Hb H.
move: E A; rewrite -[e_trajs (put_rank e false)]/(e_trajs e).
case: (gfpe_loop _ _ h1 _ _ _ _) => h1' r1; case: (gfpe_loop _ _ h2 _ _ _ _) => h2' r2 /= -> A.
by case: r2 => [[v|]|x].
Qed.

Lemma call_other (N : string -> Prop) T h e c : (forall m name, c = ToGfpe m name ->
    N name -> forall r, r \in T -> r \in e_trajs e -> False) ->
  agree T N (ecall h e c).1.1 h.
Proof.
case: c => [m name|] H /=; last by case: (mean_force _ _ _ _).
rewrite /to_gfpe; case E: (gfpe_loop _ _ _ _ _ _ _) => [h1 res].
have fr r n : r \in T -> N n -> h1 r n = h r n.
  move=> rT Nn; apply: (loop_frame E); case: (String.eqb_spec n name) => [e1|ne]; last by right.
  by left => rin; rewrite e1 in Nn; exact: (H _ _ erefl Nn r).
by case: res E => [[v|]|x].
Qed.

Lemma call_L_obs (N : string -> Prop) h e c : N (e_L_obs e) -> (forall m name, c = ToGfpe m name -> N name) ->
  N (e_L_obs (ecall h e c).1.2).
Proof.
move=> Ho; case: c => [m name|] H /=.
  by rewrite /to_gfpe; case: (gfpe_loop _ _ _ _ _ _ _) => h1 [[v|]|x] //=; exact: (H m).
rewrite /mean_force; case: (mapM _ (e_trajs e)) => [l|x] //=; by case: (fit _ _).
Qed.

(** Calls to one estimator among several. *)
Definition of_est (T : Type) i (l : seq (nat * T)) := [seq p <- l | p.1 == i].

Lemma isolated i (N : string -> Prop) (s s0 : state V B F) calls :
  s.2 i = s0.2 i -> agree (e_trajs (s.2 i)) N s.1 s0.1 ->
  (forall n, List.In n (reads (e_basis (s.2 i))) -> N n) -> N (e_L_obs (s.2 i)) ->
  (forall m name, List.In (i, ToGfpe m name) calls ->
     N name /\ forall n, List.In n (reads (if m is Some b then b else e_basis (s.2 i))) -> N n) ->
  (forall j m name r, j <> i -> List.In (j, ToGfpe m name) calls -> N name ->
     r \in e_trajs (s.2 i) -> r \in e_trajs (s.2 j) -> False) ->
  (run s calls).1.2 i = (run s0 (of_est i calls)).1.2 i
  /\ of_est i (run s calls).2 = (run s0 (of_est i calls)).2.
Proof.
elim: calls s s0 => [|[j c] calls IH] s s0 Ei A Hr Ho Hi Hj //.
rewrite /of_est [filter _ (_ :: _)]/=; case: (eqVneq j i) => [ji|ji].
  subst j; rewrite -/(of_est i calls) /=.
  have Hm n : List.In n (reads (call_model (s.2 i) c)) -> N n.
    case: (c) Hi => [m name|] Hi' /=; last exact: Hr.
    have [_ Hn] := Hi' m name (or_introl erefl); move: (Hn n); by case: (m).
  have [E1 E2 A'] := call_agree Hr Hm Ho A.
  have Lo : N (e_L_obs (ecall s.1 (s.2 i) c).1.2).
    by apply: call_L_obs => // m name ec; have [] := Hi m name (or_introl (congr1 (pair i) ec)).
  rewrite -Ei; move: E1 E2 A' Lo (@call_fixed s.1 (s.2 i) c).
  case: (ecall s.1 (s.2 i) c) => [[h1 e1] r1]; case: (ecall s0.1 (s.2 i) c) => [[h2 e2] r2] /= <- <- A' Lo fx.
  have [ft fb] := fx _ _ _ erefl.
  have := IH (h1, put s.2 i e1) (h2, put s0.2 i e1).
  rewrite /= /put eqxx ft fb => /(_ erefl A' Hr Lo).
  case: (run _ calls) => s' rs'; case: (run _ (of_est i calls)) => s'' rs'' /= []; last by move=> -> <-; rewrite /of_est /= eqxx.
    by move=> m name h; apply: Hi; right.
  move=> j m name r nji h Nn; case: eqP => // _.
  by apply: (Hj j m name r nji) => //; right.
rewrite -/(of_est i calls) /=.
have A' : agree (e_trajs (s.2 i)) N (ecall s.1 (s.2 j) c).1.1 s0.1.
  move=> r n rT Nn; rewrite -A //; apply: (call_other (N := N) (T := e_trajs (s.2 i))) => // m name ec Nm r' r'T.
  by apply: (Hj j m name r') => //; [exact/eqP | left; rewrite ec].
move: A' (@call_fixed s.1 (s.2 j) c); case: (ecall s.1 (s.2 j) c) => [[h1 e1] r1] /= A' fx.
have [ft fb] := fx _ _ _ erefl.
have ij : (i == j) = false by rewrite eq_sym (negPf ji).
have := IH (h1, put s.2 j e1) s0.
rewrite /= /put ij => /(_ Ei A' Hr Ho).
case: (run _ calls) => s' rs' /= []; last by move=> <- <-; rewrite /of_est /= (negPf ji).
  by move=> m name h; apply: Hi; right.
move=> j' m name r nj h Nn rT; have := Hj j' m name r nj (or_intror h) Nn rT.
by case: eqP => // -> ; rewrite ft.
Qed.

End Proofs.
