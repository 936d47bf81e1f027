(** * Building an estimator: specification and proofs. *)
From Coq Require Import String List.
From mathcomp Require Import all_ssreflect all_algebra.
From mathcomp Require Import zify.
From Verif Require Import Base BasisVector SaveLoad Construct.
Set Implicit Arguments.
Unset Strict Implicit.
Unset Printing Implicit Defensive.
Import GRing.Theory Num.Theory Order.Theory.

Section Spec.
Variable R : realFieldType.
Local Open Scope string_scope.
Local Open Scope seq_scope.
Local Open Scope ring_scope.
Implicit Types (d : dset R) (l : seq (dset R)) (h : store) (m : model R) (e : estimator R) (a : xva_arg R).

(** What the estimation needs in a trajectory. *)
Definition usable (c : gle_class) (L : string) d : Prop :=
  [/\ has_dim d "time", exists dt, attr_dt d = Some dt,
      forall k, k \in set_of_obs c -> has_col d k & has_col d L].

(** A trajectory with [n] times and positions in dimension [dim]. *)
Definition readable (dim : nat) d : Prop :=
  exists n t,
  [/\ (0 < n)%N /\ (0 < dim)%N, has_dim d "time" /\ (exists dt, attr_dt d = Some dt),
      times d = Ok t /\ size t = n, assoc "dim_x" (dims d) = Some dim
    & assoc "x" (cols d) = Some [:: n; dim]].

(** Its column [L] has two axes. *)
Definition two_axes (L : string) d : Prop := exists n k, assoc L (cols d) = Some [:: n; k].

Definition obs_name (c : gle_class) (L : option string) : string :=
  if L is Some k then k else last "" (set_of_obs c).

Definition given a l : Prop := a = AList l \/ exists d, a = AOne d /\ l = [:: d].

(** A basis object that the class can use with data of dimension [dim]. *)
Definition basis_ok (c : gle_class) (b : basis_obj) (dim : nat) : Prop :=
  [/\ callable b,
      (exists n, n_out b = Some n) \/ (exists f n, fit b = Some f /\ f dim = Ok n)
    & c = ConstKernel \/ exists r, const_removed b = Some r].

(** The sizes a model recorded are those of the basis object it refers to: [deriv] has
    [n - const_removed * dim] columns, as the separable bases (Sizes.v). *)
Definition consistent h m : Prop :=
  exists2 b, rd h (m_basis m) = Ok b &
  n_out b = Some (m_n m) /\
  match m_class m with
  | ConstKernel => True
  | PosGle | WithFriction => exists2 r, const_removed b = Some r &
      m_n_kernel m = (m_n m - r * m_dim_x m)%N /\ m_rank_projection m = ~~ r
  | _ => const_removed b = Some false
  end.

(** A sequence of constructions in one program. *)
Record request := Req { r_arg : xva_arg R; r_class : gle_class; r_basis : nat; r_trunc : R; r_obs : option string }.
Fixpoint build h (rs : seq request) : res (store * seq (option (estimator R))) :=
  if rs is r :: rs then
    let! he := new_estimator h (r_arg r) (r_class r) (r_basis r) (r_trunc r) (r_obs r) in
    let! hes := build he.1 rs in
    Ok (hes.1, he.2 :: hes.2)
  else Ok (h, [::]).

Definition keeps_flag (c : gle_class) : bool :=
  match c with PosGle | WithFriction | ConstKernel => true | _ => false end.

End Spec.

Section Proofs.
Variable R : realFieldType.
Local Open Scope string_scope.
Local Open Scope seq_scope.
Local Open Scope ring_scope.
Implicit Types (d : dset R) (l : seq (dset R)) (h : store) (m : model R) (e : estimator R) (a : xva_arg R).

Lemma mapM_in A B (f : A -> res B) s t x : mapM f s = Ok t -> List.In x s -> exists y, f x = Ok y.
Proof.
elim: s t => [|a s IH] t //= E; unbind E y Ey; unbind E ys Eys.
by case=> [<-|]; [exists y|apply: IH Eys].
Qed.

Lemma mapM_total A B (f : A -> res B) s : (forall x, List.In x s -> exists y, f x = Ok y) -> exists t, mapM f s = Ok t.
Proof.
elim: s => [|a s IH] /= H; first by exists [::].
have [y ->] := H a (or_introl erefl).
by have [t ->] := IH (fun x xs => H x (or_intror xs)); exists (y :: t).
Qed.

Lemma mapM_err A B (f : A -> res B) s (e : err) : (forall x, List.In x s -> (exists y, f x = Ok y) \/ f x = Err e) ->
  (exists2 x, List.In x s & f x = Err e) -> mapM f s = Err e.
Proof.
elim: s => [|a s IH] /= H; first by case.
case=> x xs xe; case: (H a (or_introl erefl)) => [[y Ey]|->] //.
rewrite Ey /= IH //; first by move=> z zs; apply: H; right.
by case: xs xe Ey => [-> -> //|xs xe _]; exists x.
Qed.

Lemma rd_wr A (a b : seq A) i j x : wr a i x = Ok b -> rd b j = if j == i then Ok x else rd a j.
Proof.
elim: a b i j => [|y a IH] b [|i] j //=; first by case=> <-; case: j.
by move=> E; unbind E a' Ea; case: E => <-; case: j => //= j; rewrite (IH _ _ _ Ea).
Qed.

Lemma bindOk (A B : Type) (a : A) (f : A -> res B) : bind (Ok a) f = f a.
Proof. by []. Qed.

Lemma guardE b (e : err) u : guard b e = Ok u -> b.
Proof. by case: b. Qed.

Lemma check_oneE d u : check_one d = Ok u -> has_dim d "time" /\ exists dt, attr_dt d = Some dt.
Proof.
rewrite /check_one => E; unbind E v Ev; split; first exact: guardE Ev.
by case: (attr_dt d) E => // dt _; exists dt.
Qed.

Lemma do_check_list a l : do_check a = Ok (Some (AList l)) ->
  given a l /\ forall d, List.In d l -> has_dim d "time" /\ exists dt, attr_dt d = Some dt.
Proof.
have K s t : mapM (@check_one R) s = Ok t -> forall d, List.In d s -> has_dim d "time" /\ exists dt, attr_dt d = Some dt.
  by move=> E d ds; have [u /check_oneE] := mapM_in E ds.
case: a => [|d|s|s] //= E.
- case Et: (check_one d) E => [u|] //= [<-]; split; first by right; exists d.
  by apply: (K [:: d] [:: u]); rewrite /= Et.
- by unbind E t Et; case: E => <-; split; [left|apply: K Et].
- by unbind E t Et.
Qed.

Lemma check_obsE c L l u : check_obs (set_of_obs c) L l = Ok u ->
  forall d, List.In d l -> (forall k, k \in set_of_obs c -> has_col d k) /\ has_col d L.
Proof.
rewrite /check_obs => E d dl; unbind E v Ev.
have [w Ew] := mapM_in Ev dl.
have K k : k \in set_of_obs c -> has_col d k /\ has_col d L.
  move=> /(nthP "")[i il <-].
  have /(mapM_in Ew)[z Ez] : List.In (nth "" (set_of_obs c) i) (set_of_obs c).
    by elim: (set_of_obs c) i il => [|x s IH] [|i] //= il; [left|right; apply: IH].
  by unbind Ez z1 E1; split; [apply: guardE E1|apply: guardE Ez].
by split=> [k /K[]|//]; case: (K "x") => //; case: c {Ev Ew K}.
Qed.

Lemma check_basisE h bl dim ds h' n : check_basis h bl dim ds = Ok (h', n) ->
  exists b b', [/\ rd h bl = Ok b, rd h' bl = Ok b', n_out b' = Some n, const_removed b' = const_removed b
    & forall i, i != bl -> rd h' i = rd h i].
Proof.
rewrite /check_basis => E; unbind E b Eb; unbind E u Eu.
case En: (n_out b) E => [n'|]; first by case=> <- <-; exists b, b.
case Ef: (fit b) => [f|] // E; unbind E dd Ed; unbind E n' En'; unbind E h2 Eh; case: E => <- <-.
exists b, (BasisObj (callable b) (Some n') (Some f) (const_removed b)); split=> //.
  by rewrite (rd_wr _ Eh) eqxx.
by move=> i ne; rewrite (rd_wr _ Eh) (negbTE ne).
Qed.

Lemma new_modelE c h bl dt dx o tr L ds h' m : new_model c h bl dt dx o tr L ds = Ok (h', m) ->
  [/\ [/\ m_class m = c, m_basis m = bl, m_dt m = dt & m_dim_x m = dx],
      [/\ m_dim_obs m = o, m_trunc_ind m = tr & m_L_obs m = L],
      consistent h' m,
      (forall i, i != bl -> rd h' i = rd h i)
    & exists b b', [/\ rd h bl = Ok b, rd h' bl = Ok b', forall n, n_out b = Some n -> n_out b' = Some n
        & keeps_flag c \/ const_removed b = Some false -> const_removed b' = const_removed b]].
Proof.
rewrite /new_model => E; unbind E hn Eh; case: hn Eh E => h1 n Eh E.
have [b [b1 [Eb Eb1 n1 r1 oth]]] := check_basisE Eh; move: E; rewrite Eb1 /= => E.
have N k : n_out b = Some k -> n_out b1 = Some k.
  move=> bk; move: Eh; rewrite /check_basis Eb /=; case: (callable b) => //=; rewrite bk => -[e1 _].
  by move: Eb1; rewrite -e1 Eb => -[<-].
case: c E => /=; last 1 first.
all: try (by case=> <- <-; split=> //; [exists b1|exists b, b1]).
all: case Er: (const_removed b1) => [r|] //= E.
all: try (by case: E => <- <-; split=> //; [exists b1 => //; split=> //; exists r|exists b, b1]).
all: unbind E h2 Eh2; case: E => <- <-; split=> //.
all: try (by exists (BasisObj (callable b1) (n_out b1) (fit b1) (Some false)); rewrite //= (rd_wr _ Eh2) eqxx).
all: try (by move=> i ne; rewrite (rd_wr _ Eh2) (negbTE ne) oth).
all: exists b, (BasisObj (callable b1) (n_out b1) (fit b1) (Some false)); split=> //.
all: try (by rewrite (rd_wr _ Eh2) eqxx).
all: by case.
Qed.

Theorem accepted h a c bl trunc L h' e : new_estimator h a c bl trunc L = Ok (h', Some e) ->
  exists d0 l', let l := d0 :: l' in
  [/\ given a l /\ e_list e = l,
      forall d, List.In d l -> usable c (obs_name c L) d,
      exists2 ts, mapM (@times R) l = Ok ts & e_weights e = map size ts,
      [/\ attr_dt d0 = Some (e_dt e), assoc "dim_x" (dims d0) = Some (m_dim_x (e_model e))
        & exists n s, assoc (obs_name c L) (cols d0) = Some [:: n, m_dim_obs (e_model e) & s]]
    & [/\ m_class (e_model e) = c, m_basis (e_model e) = bl, m_dt (e_model e) = e_dt e,
          m_trunc_ind (e_model e) = e_trunc_ind e & m_L_obs (e_model e) = obs_name c L]].
Proof.
rewrite /new_estimator => E; unbind E o Eo; case: o Eo E => [[|d|l|l]|] // Eo E.
unbind E ws Ews; unbind E d0 Ed0; unbind E dx Edx; unbind E s Es; unbind E dob Edo; unbind E dt Edt.
unbind E tr Etr; unbind E ds Eds; unbind E hm Ehm; case: hm Ehm E => h1 m Ehm E; unbind E u Eu; case: E => _ <-.
have [ga tim] := do_check_list Eo.
have [[mc mb md mx] [mo mt mL] _ _ _] := new_modelE Ehm.
case: l Eo Ews Ed0 Etr Eds Eu ga tim => [|x l] //= Eo Ews [xd] Etr Eds Eu ga tim; subst x.
exists d0, l; split=> //.
- move=> d dl; have [t1 t2] := tim d dl; have := check_obsE Eu.
  by rewrite mL => /(_ d dl)[t3 t4]; split.
- have K : forall s ws, mapM (fun d => let! t := times d in Ok (size t)) s = Ok ws ->
     exists2 ts, mapM (@times R) s = Ok ts & ws = map size ts.
    elim=> [|z s' IH] ws' /=; first by case=> <-; exists [::].
    move=> E; unbind E y Ey; unbind E ys Eys; case: E => <-; unbind Ey t Et; case: Ey => <-.
    by have [ts -> ->] := IH _ Eys; exists (t :: ts); rewrite // Et.
  exact: (K (d0 :: l) ws Ews).
- split=> /=.
  + by case: (attr_dt d0) Edt => // ? [->].
  + by rewrite mx; move: Edx; rewrite /dim_size; case: assoc => // ? [->].
  + move: Es; rewrite /column /obs_name; case: assoc => // s' [e1]; subst s'.
    by case: s Edo => [|n [|k s]] //= [->]; exists n, s; rewrite mo.
Qed.

(** The truncation index: times of the first trajectory not above [trunc] nor above the last
    time of any trajectory. *)
Theorem accepted_trunc h a c bl trunc L h' e : new_estimator h a c bl trunc L = Ok (h', Some e) ->
  exists t0 ts cut,
  [/\ mapM (@times R) (e_list e) = Ok (t0 :: ts), e_trunc_ind e = count (fun t => t <= cut) t0,
      cut <= trunc /\ forall t x, List.In t (t0 :: ts) -> cut <= last x t
    & cut = trunc \/ exists2 t, List.In t (t0 :: ts) & forall x, cut = last x t].
Proof.
rewrite /new_estimator => E; unbind E o Eo; case: o Eo E => [[|d|l|l]|] // Eo E.
unbind E ws Ews; unbind E d0 Ed0; unbind E dx Edx; unbind E s Es; unbind E dob Edo; unbind E dt Edt.
unbind E tr Etr; unbind E ds Eds; unbind E hm Ehm; case: hm Ehm E => h1 m Ehm E; unbind E u Eu; case: E => _ <- /=.
move: Etr; rewrite /trunc_index => E; unbind E ts Ets; unbind E la Ela.
rewrite Ets; case: ts Ets Ela E => [|t0 ts] Ets; first by case: la.
case: la => [|x xs] // Ela [<-].
have lastE : forall ts la, mapM (@last_of R) ts = Ok la ->
    (forall t, List.In t ts -> exists2 y, y \in la & forall z, y = last z t) /\
    (forall y, y \in la -> exists2 t, List.In t ts & forall z, y = last z t).
  elim=> [|t ts' IH] la' /=; first by case=> <-.
  move=> E; unbind E y Ey; unbind E ys Eys; case: E => <-.
  have ty z : y = last z t by case: t Ey => // ? ? [<-].
  have [A B] := IH _ Eys; split=> t'.
    by case=> [<-|/A[y' y'ys ?]]; [exists y; rewrite ?mem_head|exists y'; rewrite // inE y'ys orbT].
  by rewrite inE => /orP[/eqP->|/B[t'' ? ?]]; [exists t => //; left|exists t'' => //; right].
have [A B] := lastE _ _ Ela.
have minP : forall s (y : R), (foldl Num.min y s \in y :: s) /\ (forall z, z \in y :: s -> foldl Num.min y s <= z).
  elim=> [|z s' IH] y /=; first by rewrite mem_head; split=> // z; rewrite inE => /eqP->.
  have [I1 I2] := IH (Num.min y z); split.
    move: I1; rewrite !inE => /orP[/eqP->|->]; last by rewrite !orbT.
    by rewrite minEle; case: ifP; rewrite eqxx ?orbT.
  move=> w; rewrite !inE => /or3P[/eqP->|/eqP->|ws'].
  - by apply: le_trans (I2 _ (mem_head _ _)) _; rewrite le_minl lexx.
  - by apply: le_trans (I2 _ (mem_head _ _)) _; rewrite le_minl lexx orbT.
  - by apply: I2; rewrite inE ws' orbT.
have [I1 I2] := minP xs x.
exists t0, ts, (if foldl Num.min x xs < trunc then foldl Num.min x xs else trunc); split=> //.
- case: ltP => [/ltW lt|ge]; split=> // t z /A[y yla yE]; rewrite -(yE z); first exact: I2.
  exact: le_trans ge (I2 _ yla).
- case: ifP => _; last by left.
  by right; have [t ? ?] := B _ I1; exists t.
Qed.

(** ** Well-formed data are accepted. *)
Lemma readable_new h a d0 l c bl trunc L dim b :
  given a (d0 :: l) -> (forall d, List.In d (d0 :: l) -> readable dim d) -> two_axes (obs_name c L) d0 ->
  rd h bl = Ok b -> basis_ok c b dim ->
  exists h' e, new_estimator h a c bl trunc L
    = let! _ := check_obs (set_of_obs c) (obs_name c L) (d0 :: l) in Ok (h', Some e).
Proof.
move=> ga wf [nL [k0 hcL0]] hb [cb bn br].
have chk : exists t, mapM (@check_one R) (d0 :: l) = Ok t.
  apply: mapM_total => d /wf[n [t [_ [ht [dt hd]] _ _ _]]]; exists tt.
  by rewrite /check_one ht hd.
have -> : new_estimator h a c bl trunc L = new_estimator h (AList (d0 :: l)) c bl trunc L.
  by case: ga => [->|[d [-> []]]] // -> ->.
have [u Eu] := chk; rewrite /new_estimator /do_check Eu 2!bindOk; cbv iota beta.
have [n0 [t0 [[n0p dimp] [ht0 [dt0 hdt0]] [Et0 st0] hx0 hcx0]]] := wf d0 (or_introl erefl).
have [ts Ets] : exists ts, mapM (@times R) (d0 :: l) = Ok ts.
  by apply: mapM_total => d /wf[n [t [_ _ [Et _] _ _]]]; exists t.
have [ws ->] : exists ws, mapM (fun d => let! t := times d in Ok (size t)) (d0 :: l) = Ok ws.
  by apply: mapM_total => d /wf[n [t [_ _ [Et _] _ _]]]; exists (size t); rewrite Et.
rewrite !bindOk /dim_size hx0 bindOk -/(obs_name c L) /column hcL0 !bindOk hdt0 bindOk.
have [tr ->] : exists tr, trunc_index trunc (d0 :: l) = Ok tr.
  rewrite /trunc_index Ets bindOk.
  have [la Ela] : exists la, mapM (@last_of R) ts = Ok la.
    apply: mapM_total => t tts.
    have [d dl Ed] : exists2 d, List.In d (d0 :: l) & times d = Ok t.
      elim: (d0 :: l) ts Ets tts => [|d l' IH] ts' /= E; first by case: E => <-.
      unbind E y Ey; unbind E ys Eys; case: E => <- /= [<-|/(IH _ Eys)[d' ? ?]]; first by exists d => //; left.
      by exists d' => //; right.
    have [n [t' [[np _] _ [Et' st'] _ _]]] := wf _ dl.
    by move: np; rewrite -st'; move: Et'; rewrite Ed => -[<-]; case: t {tts Ed} => // x t _; exists (last x t).
  rewrite Ela bindOk; case: ts Ets Ela => [|t ts] /=; first by rewrite Et0 /= => E; unbind E y Ey.
  move=> _ E; unbind E y Ey; unbind E ys Eys; case: E => <-.
  by eexists.
have [ds [-> Eds]] : exists ds, describe_all (d0 :: l) = Ok ds /\ ds = Some dim.
  have Ed : mapM (@describe_shape R) (d0 :: l) = Ok (nseq (size (d0 :: l)) (Some dim)).
    elim: (d0 :: l) wf => [|d l' IH] //= wf'.
    have [n [t [[np _] _ _ _ hcx]]] := wf' d (or_introl erefl).
    by rewrite {1}/describe_shape /column hcx /= np dimp /= IH // => d' dl'; apply: wf'; right.
  exists (Some dim); split=> //; rewrite /describe_all Ed /=.
  by elim: (size l) => //= n IH; rewrite eqxx.
rewrite !bindOk.
have [h' [m [-> mL]]] : exists h' m, new_model c h bl dt0 dim k0 tr (obs_name c L) (Some ds) = Ok (h', m) /\ m_L_obs m = obs_name c L.
  have [h1 [n [b1 [Ecb Eb1 r1]]]] : exists h1 n b1, [/\ check_basis h bl dim (Some ds) = Ok (h1, n), rd h1 bl = Ok b1 & const_removed b1 = const_removed b].
    rewrite /check_basis hb /= cb /= Eds.
    case: bn => [[n ->]|[f [n [Ef En]]]]; first by exists h, n, b.
    case: (n_out b) => [n'|]; first by exists h, n', b.
    have [lt _] := rd_ok b hb.
    rewrite Ef /= En /=; have [h1 Eh1 _] := wr_total b (BasisObj true (Some n) (Some f) (const_removed b)) lt.
    rewrite Eh1 /=; exists h1, n, (BasisObj true (Some n) (Some f) (const_removed b)); split=> //.
    by rewrite (rd_wr _ Eh1) eqxx.
  rewrite /new_model Ecb /= Eb1 /= r1.
  have [lt1 _] := rd_ok b Eb1.
  case: br => [->|[r ->]]; first by do 2!eexists.
  have [h2 Eh2 _] := wr_total b (BasisObj (callable b1) (n_out b1) (fit b1) (Some false)) lt1.
  by case: c {wf hcL0}; rewrite ?Eh2 /=; do 2!eexists.
by rewrite bindOk mL; do 2!eexists.
Qed.

Lemma check_obs_ok c L l : (forall d, List.In d l -> (forall k, k \in set_of_obs c -> has_col d k) /\ has_col d L) ->
  check_obs (set_of_obs c) L l = Ok tt.
Proof.
move=> H; rewrite /check_obs; suff [v ->] : exists v, mapM (fun d => mapM (fun c =>
  let! _ := guard (has_col d c) Documented in guard (has_col d L) Documented) (set_of_obs c)) l = Ok v by [].
apply: mapM_total => d /H[hob hL]; apply: mapM_total => z zs; exists tt.
have zo : z \in set_of_obs c.
  by elim: (set_of_obs c) zs => //= y s IH [->|/IH K]; rewrite inE ?eqxx // K orbT.
by rewrite hob //= hL.
Qed.

Lemma check_obs_no c L l : (exists2 d, List.In d l & (exists2 k, k \in set_of_obs c & ~~ has_col d k) \/ ~~ has_col d L) ->
  check_obs (set_of_obs c) L l = Err Documented.
Proof.
case=> d dl bad; rewrite /check_obs.
set f := fun d => mapM _ _.
have two A B (g : A -> res B) s : (forall x, (exists y, g x = Ok y) \/ g x = Err Documented) ->
    (exists y, mapM g s = Ok y) \/ mapM g s = Err Documented.
  move=> H; elim: s => [|x s IH] /=; first by left; eexists.
  case: (H x) => [[y ->]|->]; last by right.
  by case: IH => [[ys ->]|->]; [left; eexists|right].
have fe x : (exists y, f x = Ok y) \/ f x = Err Documented.
  apply: two => k; case: (has_col x k) => /=; last by right.
  by case: (has_col x L); [left; exists tt|right].
suff fd : f d = Err Documented.
  by rewrite (@mapM_err _ _ f l Documented) //; exists d.
case: (fe d) => // -[u E]; exfalso.
have K k : k \in set_of_obs c -> has_col d k /\ has_col d L.
  move=> /(nthP "")[i il <-].
  have /(mapM_in E)[z Ez] : List.In (nth "" (set_of_obs c) i) (set_of_obs c).
    by elim: (set_of_obs c) i il => [|x s IH] [|i] //= il; [left|right; apply: IH].
  by unbind Ez z1 E1; split; [apply: guardE E1|apply: guardE Ez].
case: bad => [[k /K[-> //]]|].
by have [_ ->] : has_col d "x" /\ has_col d L by apply: K; case: (c).
Qed.

Theorem accepts h a l c bl trunc L dim b :
  given a l -> l <> [::] ->
  (forall d, List.In d l -> readable dim d /\ usable c (obs_name c L) d) ->
  (forall d, ohead l = Some d -> two_axes (obs_name c L) d) ->
  rd h bl = Ok b -> basis_ok c b dim ->
  exists h' e, new_estimator h a c bl trunc L = Ok (h', Some e).
Proof.
case: l => // d0 l ga _ wf ax hb bo.
have [h' [e ->]] := readable_new trunc ga (fun d dl => (wf d dl).1) (ax d0 erefl) hb bo.
by rewrite check_obs_ok; [exists h', e|move=> d /wf[_ []]].
Qed.

(** ** What is refused with the documented exception. *)
Theorem refused_time h a l c bl trunc L :
  given a l \/ a = AIter l ->
  (exists2 d, List.In d l & ~~ has_dim d "time" \/ attr_dt d = None) ->
  new_estimator h a c bl trunc L = Err Documented.
Proof.
move=> ga [d dl bad].
have M : mapM (@check_one R) l = Err Documented.
  apply: mapM_err => [x _|].
    rewrite /check_one; case: (has_dim x "time") => /=; last by right.
    by case: (attr_dt x) => [dt|]; [left; exists tt|right].
  exists d => //; rewrite /check_one; case: bad => [/negbTE->|->] //.
  by case: (has_dim d "time").
rewrite /new_estimator; suff -> : do_check a = Err Documented by [].
case: ga => [[->|[d' [-> ld]]]|->] /=; [by rewrite M| |by rewrite M].
by move: M; rewrite ld /=; case: (check_one d') => [u|e] //= [->].
Qed.

Theorem refused_column h a d0 l c bl trunc L dim b :
  given a (d0 :: l) -> (forall d, List.In d (d0 :: l) -> readable dim d) -> two_axes (obs_name c L) d0 ->
  rd h bl = Ok b -> basis_ok c b dim ->
  (exists2 d, List.In d (d0 :: l) & (exists2 k, k \in set_of_obs c & ~~ has_col d k) \/ ~~ has_col d (obs_name c L)) ->
  new_estimator h a c bl trunc L = Err Documented.
Proof.
move=> ga re ax hb bo bad.
by have [h' [e ->]] := readable_new trunc ga re ax hb bo; rewrite check_obs_no.
Qed.

(** ** What is refused otherwise. *)
Lemma mapM_times l : (forall d, List.In d l -> exists dim, readable dim d) ->
  exists ws, mapM (fun d => let! t := times d in Ok (size t)) l = Ok ws.
Proof. by move=> H; apply: mapM_total => d /H[dim [n [t [_ _ [Et _] _ _]]]]; exists (size t); rewrite Et. Qed.

Lemma mapM_check l : (forall d, List.In d l -> exists dim, readable dim d) -> exists u, mapM (@check_one R) l = Ok u.
Proof.
by move=> H; apply: mapM_total => d /H[dim [n [t [_ [ht [dt hd]] _ _ _]]]]; exists tt; rewrite /check_one ht hd.
Qed.

Theorem missing_observable h d0 l c bl trunc L :
  (forall d, List.In d (d0 :: l) -> exists dim, readable dim d) -> ~~ has_col d0 (obs_name c L) ->
  new_estimator h (AList (d0 :: l)) c bl trunc L = Err KeyError.
Proof.
move=> re mi; rewrite /new_estimator /do_check.
have [u ->] := mapM_check re; rewrite 2!bindOk; cbv iota beta.
have [ws ->] := mapM_times re; rewrite !bindOk.
have [dim [n [t [_ _ _ hx _]]]] := re d0 (or_introl erefl).
rewrite /dim_size hx bindOk -/(obs_name c L) /column; suff -> : assoc (obs_name c L) (cols d0) = None by [].
move: mi; rewrite /has_col /assoc; elim: (cols d0) => //= -[k v] s IH; rewrite inE negb_or /= eq_sym.
by case: eqP.
Qed.

Theorem iterator_refused h l c bl trunc L :
  (forall d, List.In d l -> exists dim, readable dim d) ->
  new_estimator h (AIter l) c bl trunc L = Err TypeError.
Proof. by move=> re; rewrite /new_estimator /do_check; have [u ->] := mapM_check re. Qed.

Theorem empty_refused h c bl trunc L : new_estimator h (AList [::] : xva_arg R) c bl trunc L = Err OutOfBounds.
Proof. by []. Qed.

(** ** Models sharing a basis object *)
Lemma new_estimator_store h a c bl trunc L h' r : new_estimator h a c bl trunc L = Ok (h', r) ->
  (r = None /\ h' = h) \/
  exists e dt dx o tr Lo ds, r = Some e /\ new_model c h bl dt dx o tr Lo ds = Ok (h', e_model e).
Proof.
rewrite /new_estimator => E; unbind E ol Eo; case: ol Eo E => [[|d|l|l]|] // Eo E; last first.
  by case: E => <- <-; left.
unbind E ws Ews; unbind E d0 Ed0; unbind E dx Edx; unbind E s Es; unbind E dob Edo; unbind E dt Edt.
unbind E tr Etr; unbind E ds Eds; unbind E hm Ehm; case: hm Ehm E => h1 m Ehm E; unbind E u Eu; case: E => <- <-.
by right; exists (Est l ws dt tr m), dt, dx, dob, tr, (obs_name c L), (Some ds).
Qed.

Theorem fresh_consistent h a c bl trunc L h' e : new_estimator h a c bl trunc L = Ok (h', Some e) ->
  consistent h' (e_model e).
Proof.
move=> /new_estimator_store[[]//|[e' [dt [dx [o [tr [Lo [ds [[<-] /new_modelE[_ _ co _ _]]]]]]]]]].
exact: co.
Qed.

(** What a construction does to the objects of the store. *)
Lemma store_step h a c bl trunc L h' r i b : new_estimator h a c bl trunc L = Ok (h', r) ->
  rd h i = Ok b ->
  exists b', [/\ rd h' i = Ok b', forall n, n_out b = Some n -> n_out b' = Some n
    & [\/ i != bl, keeps_flag c | const_removed b = Some false] -> const_removed b' = const_removed b].
Proof.
move=> /new_estimator_store[[_ ->]|[e [dt [dx [o [tr [Lo [ds [_ /new_modelE[_ _ _ oth [b0 [b1 [E0 E1 n1 r1]]]]]]]]]]]]] hb.
  by exists b.
case: (eqVneq i bl) => [ib|ne]; last by exists b; rewrite oth.
subst i; move: hb; rewrite E0 => -[e0]; subst b0; exists b1; split=> //.
by case=> // ?; apply: r1; [left|right].
Qed.

Theorem consistent_step h a c bl trunc L h' r m : new_estimator h a c bl trunc L = Ok (h', r) ->
  consistent h m ->
  [\/ m_basis m != bl, keeps_flag c | forall b, rd h bl = Ok b -> const_removed b = Some false] ->
  consistent h' m.
Proof.
move=> E [b hb [nb cl]] H.
have [b' [hb' nb' rb']] := store_step E hb.
have rE : const_removed b' = const_removed b.
  apply: rb'; case: H => [?|?|H]; [by constructor 1|by constructor 2|].
  by case: (eqVneq (m_basis m) bl) => [e|]; [constructor 3; apply: H; rewrite -e|constructor 1].
by exists b' => //; split; [apply: nb'|rewrite rE].
Qed.

Theorem build_consistent rs h h' es :
  (forall r b, List.In r rs -> keeps_flag (r_class r) \/ (rd h (r_basis r) = Ok b -> const_removed b = Some false)) ->
  build h rs = Ok (h', es) -> forall e, List.In (Some e) es -> consistent h' (e_model e).
Proof.
suff K : forall rs h h' es (ms : model R -> Prop), (forall m, ms m -> consistent h m) ->
  (forall r b, List.In r rs -> keeps_flag (r_class r) \/ (rd h (r_basis r) = Ok b -> const_removed b = Some false)) ->
  build h rs = Ok (h', es) ->
  (forall m, ms m -> consistent h' m) /\ forall e, List.In (Some e) es -> consistent h' (e_model e).
  by move=> H E; have [] := K rs h h' es (fun _ => False) (fun _ f => match f with end) H E.
elim=> [|r rs' IH] h0 h1 es0 ms ih H /=; first by case=> <- <-; split.
move=> E; unbind E he Ehe; unbind E hes Ehes; case: E => <- <-; case: he Ehe Ehes => h2 e2 Ehe Ehes /=.
have st m : consistent h0 m -> consistent h2 m.
  move=> co; apply: (consistent_step Ehe co).
  case: (boolP (keeps_flag (r_class r))) => kf; first by constructor 2.
  constructor 3 => b; case: (H r b (or_introl erefl)) => //; by rewrite (negbTE kf).
have H2 r' b : List.In r' rs' -> keeps_flag (r_class r') \/ (rd h2 (r_basis r') = Ok b -> const_removed b = Some false).
  move=> r'in; case: (boolP (keeps_flag (r_class r'))) => kf; first by left.
  right=> hb.
  have [b0 hb0] : exists b0, rd h0 (r_basis r') = Ok b0.
    case: (new_estimator_store Ehe) => [[_ <-]|[e [dt [dx [o [tr [Lo [ds [_ /new_modelE[_ _ _ oth [b0 [b1 [E0 _ _ _]]]]]]]]]]]]]; first by exists b.
    by case: (eqVneq (r_basis r') (r_basis r)) => [->|ne]; [exists b0|exists b; rewrite -oth].
  have f0 : const_removed b0 = Some false.
    by case: (H r' b0 (or_intror r'in)) => [|/(_ hb0)//]; rewrite (negbTE kf).
  have [b' [hb' _ rb']] := store_step Ehe hb0.
  move: hb'; rewrite hb => -[->]; rewrite rb' //; by constructor 3.
have [A B] : (forall m, ms m \/ (exists2 e, e2 = Some e & m = e_model e) -> consistent hes.1 m) /\
    forall e, List.In (Some e) hes.2 -> consistent hes.1 (e_model e).
  apply: IH H2 _; last by rewrite Ehes; case: (hes).
  move=> m [/ih/st //|[e ee ->]].
  by apply: fresh_consistent; rewrite -ee; exact: Ehe.
split=> [m mm|e /= [e2e|/B//]]; first by apply: A; left.
by apply: A; right; exists e.
Qed.
End Proofs.
