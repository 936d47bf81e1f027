(** * Saving and loading a model: specification and proofs. *)
From Coq Require Import String.
From mathcomp Require Import all_ssreflect all_algebra.
From mathcomp Require Import zify.
From Verif Require Import Base SaveLoad.
Set Implicit Arguments.
Unset Strict Implicit.
Unset Printing Implicit Defensive.

Section Spec.
Variable R : realFieldType.
Local Open Scope string_scope.
Local Open Scope seq_scope.
Implicit Types (o : mobj R).

(** The arrays the estimator stores: widths of the force basis, of the kernel basis, of the
    kernel arrays, of the projected basis; [obs] is the axis of the observable. *)
Record widths := Widths { w_force : nat; w_corrs : nat; w_kernel : nat; w_range : nat; w_old : nat; w_x : nat }.

Definition has_axes (a : option (darray R)) (ax : seq (string * nat)) : bool :=
  if a is Some a then axes a == ax else true.

Definition produced (w : widths) (T : nat) (obs : string * nat) o : Prop :=
  [/\ obs = ("dim_x", w_x w) \/ obs.1 = "dim_dE",
      has_axes (o_force_coeff o) [:: ("dim_basis", w_force w); obs],
      has_axes (o_gram_force o) [:: ("dim_basis", w_force w); ("dim_basis'", w_force w)],
      has_axes (o_kernel o) [:: ("time_kernel", T); ("dim_basis", w_corrs w); obs]
    & [/\ has_axes (o_gram_kernel o) [:: ("dim_basis", w_kernel w); ("dim_basis'", w_kernel w)],
          has_axes (o_inv_mass_coeff o) [:: ("dim_basis", w_kernel w); ("dim_x'", w_x w)],
          has_axes (o_eff_mass o) [:: ("dim_x'", w_x w); ("dim_x", w_x w)]
        & has_axes (o_P_range o) [:: ("dim_basis", w_range w); ("dim_basis_old", w_old w)]]].

(** Widths of the stored arrays other than the force: they share one axis name. *)
Definition present (a : option (darray R)) (n : nat) : seq nat := if a is Some _ then [:: n] else [::].
Definition basis_widths (w : widths) o : seq nat :=
  present (o_kernel o) (w_corrs w) ++ present (o_inv_mass_coeff o) (w_kernel w)
  ++ present (o_gram_kernel o) (w_kernel w) ++ present (o_P_range o) (w_range w).
Definition all_equal (l : seq nat) : Prop := forall x y, x \in l -> y \in l -> x = y.

End Spec.

Section Proofs.
Variable R : realFieldType.
Local Open Scope string_scope.
Local Open Scope seq_scope.
Implicit Types (o : mobj R) (vs : seq (string * value R)).

Definition compat vs (v : value R) : bool :=
  all (fun p => all (fun q => (p.1 != q.1) || (p.2 == q.2)) (ds_axes vs)) (value_axes v).

Lemma compat_nil v : compat [::] v.
Proof. by apply/allP. Qed.

Lemma bindOk (A B : Type) (a : A) (f : A -> res B) : bind (Ok a) f = f a.
Proof. by []. Qed.

Fixpoint addable vs (l : seq (string * value R)) : bool :=
  if l is kv :: l' then compat vs kv.2 && addable (rcons vs kv) l' else true.

Lemma update_new A vs k v : k \notin unzip1 vs ->
  update (DS A vs) k v = if compat vs v then Ok (DS A (rcons vs (k, v))) else Err ValueError.
Proof.
move=> kn; rewrite /update /=.
have -> : [seq p <- vs | p.1 != k] = vs.
  elim: vs kn => [|p l IH] //=; rewrite inE negb_or eq_sym => /andP[-> kn]; congr cons; exact: IH.
rewrite -/(compat vs v); case: (compat vs v) => //=; rewrite /set_assoc.
suff -> : has (fun p => p.1 == k) vs = false by [].
by elim: vs kn => [|p l IH] //=; rewrite inE negb_or eq_sym => /andP[/negbTE-> /IH].
Qed.

Definition kept (A l : seq (string * value R)) := [seq kv <- l | (kv.1 \notin unzip1 A) && (kv.1 \notin excluded)].

Definition save_step (d : res (dataset R)) kv :=
  let! d := d in
  if (kv.1 \notin unzip1 (ds_attrs d)) && (kv.1 \notin excluded) then update d kv.1 kv.2 else Ok d.

Lemma save_step_err e l : foldl save_step (Err e) l = Err e.
Proof. by elim: l. Qed.

Lemma save_fold A vs l : uniq (unzip1 (vs ++ kept A l)) ->
  foldl save_step (Ok (DS A vs)) l
  = if addable vs (kept A l) then Ok (DS A (vs ++ kept A l)) else Err ValueError.
Proof.
elim: l vs => [|[k v] l IH] vs /=; first by rewrite cats0.
case: ifP => kk un; last exact: IH.
have kn : k \notin unzip1 vs.
  by move: un; rewrite /unzip1 map_cat cat_uniq /= negb_or => /and3P[_ /andP[]].
rewrite update_new //=; case: (compat vs v) => /=; last by rewrite save_step_err.
by rewrite IH cat_rcons.
Qed.

(** What a saved model contains. *)
Definition attrs_of o : seq (string * value R) :=
  [:: ("dt", VNum (o_dt o)); ("trunc_ind", VNat R (o_trunc_ind o)); ("L_obs", VStr R (o_L_obs o));
      ("dim_x", VNat R (o_dim_x o)); ("dim_obs", VNat R (o_dim_obs o))].

Definition force_axes (a : darray R) :=
  DArr [seq if p.1 == "dim_basis" then ("dim_basis_force", p.2)
            else if p.1 == "dim_basis'" then ("dim_basis_force'", p.2) else p | p <- axes a] (values a) (coord a).

Definition vars_of o : seq (string * value R) :=
  opt_items "force_coeff" (omap (fun a => VArr (force_axes a)) (o_force_coeff o))
  ++ opt_items "gram_force" (omap (fun a => VArr (force_axes a)) (o_gram_force o))
  ++ [:: ("N_basis_elt", VNat R (o_N_basis_elt o))]
  ++ opt_items "kernel" (omap (@VArr R) (o_kernel o))
  ++ opt_items "inv_mass_coeff" (omap (@VArr R) (o_inv_mass_coeff o))
  ++ opt_items "eff_mass" (omap (@VArr R) (o_eff_mass o))
  ++ opt_items "gram_kernel" (omap (@VArr R) (o_gram_kernel o))
  ++ opt_items "method" (omap (VStr R) (o_method o))
  ++ [:: ("rank_projection", VBool R (o_rank_projection o))]
  ++ opt_items "P_range" (omap (@VArr R) (o_P_range o)).

Definition pre_vars o : seq (string * value R) :=
  opt_items "force_coeff" (omap (fun a => VArr (force_axes a)) (o_force_coeff o))
  ++ opt_items "gram_force" (omap (fun a => VArr (force_axes a)) (o_gram_force o)).

Lemma rename_force w T obs o f : produced w T obs o -> o_force_coeff o = Some f ->
  rename "dim_basis" "dim_basis_force" f = Ok (force_axes f).
Proof.
case=> ob Hf _ _ _ fE; move: Hf; rewrite fE /= => /eqP aE.
rewrite /rename /force_axes aE /=.
by case: ob => [->|] //=; case: obs aE => l n aE /= ->.
Qed.

Lemma rename_gram w T obs o g : produced w T obs o -> o_gram_force o = Some g ->
  (let! g := rename "dim_basis" "dim_basis_force" g in rename "dim_basis'" "dim_basis_force'" g) = Ok (force_axes g).
Proof.
case=> ob _ Hg _ _ gE; move: Hg; rewrite gE /= => /eqP aE.
by rewrite /rename /force_axes aE.
Qed.

Lemma pre_compat w T obs o f g : produced w T obs o -> o_force_coeff o = Some f -> o_gram_force o = Some g ->
  compat [:: ("force_coeff", VArr (force_axes f))] (VArr (force_axes g)).
Proof.
case=> ob Hf Hg _ _ fE gE; move: Hf Hg; rewrite fE gE /= => /eqP fa /eqP ga.
rewrite /compat /force_axes fa ga /= /ds_axes /= eqxx.
by case: ob => [->|] //=; case: obs fa => l n fa /= ->.
Qed.

Lemma save_pre w T obs o : produced w T obs o ->
  save_model o = foldl save_step (Ok (DS (attrs_of o) (pre_vars o))) (obj_dict o).
Proof.
move=> H; rewrite /save_model -/(attrs_of o) /pre_vars.
have rf := rename_force H; have rg := rename_gram H; have pc := pre_compat H.
have gramE d g : o_gram_force o = Some g ->
    (let! g' := rename "dim_basis" "dim_basis_force" g in
     let! g'' := rename "dim_basis'" "dim_basis_force'" g' in update d "gram_force" (VArr g''))
    = update d "gram_force" (VArr (force_axes g)).
  by move/rg; case: (rename _ _ g) => //= g' ->.
have forceE d f : o_force_coeff o = Some f ->
    (let! f' := rename "dim_basis" "dim_basis_force" f in update d "force_coeff" (VArr f'))
    = update d "force_coeff" (VArr (force_axes f)).
  by move/rf => ->.
case fE: (o_force_coeff o) => [f|]; case gE: (o_gram_force o) => [g|] //.
- by rewrite forceE // update_new // compat_nil bindOk gramE // update_new // pc.
- by rewrite forceE // update_new // compat_nil.
- by rewrite bindOk gramE // update_new // compat_nil.
Qed.

Definition rest_vars o : seq (string * value R) :=
  [:: ("N_basis_elt", VNat R (o_N_basis_elt o))]
  ++ opt_items "kernel" (omap (@VArr R) (o_kernel o))
  ++ opt_items "inv_mass_coeff" (omap (@VArr R) (o_inv_mass_coeff o))
  ++ opt_items "eff_mass" (omap (@VArr R) (o_eff_mass o))
  ++ opt_items "gram_kernel" (omap (@VArr R) (o_gram_kernel o))
  ++ opt_items "method" (omap (VStr R) (o_method o))
  ++ [:: ("rank_projection", VBool R (o_rank_projection o))]
  ++ opt_items "P_range" (omap (@VArr R) (o_P_range o)).

Lemma kept_dict o : kept (attrs_of o) (obj_dict o) = rest_vars o.
Proof.
rewrite /kept /obj_dict !filter_cat.
have H k v : [seq kv <- opt_items k v | (kv.1 \notin unzip1 (attrs_of o)) && (kv.1 \notin excluded)]
   = if (k \notin unzip1 (attrs_of o)) && (k \notin excluded) then opt_items k v else [::].
  by case: v => [v|] /=; case: ifP.
by rewrite !H /= cats0.
Qed.

Lemma opt_keys k (v : option (value R)) : subseq (unzip1 (opt_items k v)) [:: k].
Proof. by case: v => [v|] //=; rewrite eqxx. Qed.

Definition all_keys : seq string :=
  [:: "force_coeff"] ++ [:: "gram_force"] ++ [:: "N_basis_elt"] ++ [:: "kernel"] ++ [:: "inv_mass_coeff"]
  ++ [:: "eff_mass"] ++ [:: "gram_kernel"] ++ [:: "method"] ++ [:: "rank_projection"] ++ [:: "P_range"].

Lemma vars_uniq o : uniq (unzip1 (vars_of o)).
Proof.
apply: (@subseq_uniq _ _ all_keys) => //.
rewrite /all_keys /vars_of /unzip1 !map_cat; do !apply: cat_subseq; try exact: opt_keys.
- by rewrite /= eqxx.
- by rewrite /= eqxx.
Qed.

Lemma pre_rest o : pre_vars o ++ rest_vars o = vars_of o.
Proof. by rewrite /rest_vars /pre_vars /vars_of !catA. Qed.

Lemma save_general w T obs o : produced w T obs o ->
  save_model o = if addable (pre_vars o) (rest_vars o)
                 then Ok (DS (attrs_of o) (vars_of o)) else Err ValueError.
Proof.
move=> H; rewrite (save_pre H) save_fold kept_dict; last by rewrite pre_rest vars_uniq.
by rewrite pre_rest.
Qed.

(** An axis has one size. *)
Definition consistent (l : seq (string * nat)) : Prop :=
  forall p q, p \in l -> q \in l -> p.1 = q.1 -> p.2 = q.2.

Lemma consistent_sub l l' : {subset l' <= l} -> consistent l -> consistent l'.
Proof. by move=> sub H p q /sub pl /sub ql; apply: H. Qed.

Lemma ds_axes_cat vs vs' : ds_axes (vs ++ vs') = ds_axes vs ++ ds_axes vs'.
Proof. by rewrite /ds_axes map_cat flatten_cat. Qed.

Lemma compatP vs v : consistent (ds_axes vs) -> consistent (value_axes v) ->
  (compat vs v <-> consistent (ds_axes vs ++ value_axes v)).
Proof.
move=> cv ca; split=> [/allP H p q|H]; last first.
  apply/allP => p pv; apply/allP => q qv; case: eqP => //= e; apply/eqP.
  by apply: H; rewrite ?mem_cat ?pv ?qv ?orbT.
have K p' q' : p' \in value_axes v -> q' \in ds_axes vs -> p'.1 = q'.1 -> p'.2 = q'.2.
  by move=> /H/allP H' /H' + e; rewrite e eqxx /= => /eqP.
rewrite !mem_cat => /orP[pl|pl] /orP[ql|ql] e.
- exact: cv.
- by symmetry; apply: K.
- exact: K.
- exact: ca.
Qed.

Fixpoint own_consistent (l : seq (string * value R)) : Prop :=
  if l is kv :: l' then consistent (value_axes kv.2) /\ own_consistent l' else True.

Lemma own_cat l l' : own_consistent (l ++ l') <-> own_consistent l /\ own_consistent l'.
Proof.
elim: l => [|kv l IH] /=; first by split=> // -[].
by split=> [[c /IH[? ?]]|[[c ?] ?]]; do !split=> //; apply/IH.
Qed.

Lemma addableP vs l : consistent (ds_axes vs) -> own_consistent l ->
  (addable vs l <-> consistent (ds_axes (vs ++ l))).
Proof.
elim: l vs => [|kv l IH] vs cv /=; first by rewrite cats0.
case=> ck cl; have cE := compatP cv ck.
have rE : ds_axes (rcons vs kv) = ds_axes vs ++ value_axes kv.2.
  by rewrite -cats1 ds_axes_cat /ds_axes /= cats0.
split=> [/andP[/cE c a]|H].
  by rewrite -cat_rcons; apply/IH => //; rewrite rE.
have c : consistent (ds_axes vs ++ value_axes kv.2).
  apply: consistent_sub H => p; rewrite -rE -cat_rcons ds_axes_cat mem_cat => ->.
  by [].
apply/andP; split; first exact/cE.
by apply/IH; rewrite ?rE // cat_rcons.
Qed.

Lemma own_axes (v : value R) : uniq (unzip1 (value_axes v)) -> consistent (value_axes v).
Proof.
elim: (value_axes v) => [|r l IH] //= /andP[nr /IH cl] p q.
have no t : t \in l -> t.1 <> r.1 by move=> tl e; case/negP: nr; rewrite -e; apply/mapP; exists t.
rewrite !inE => /orP[/eqP->|pl] /orP[/eqP->|ql] e //.
- by case: (no _ ql).
- by case: (no _ pl).
exact: cl.
Qed.

(** The size of an axis, given the common width of the stored arrays. *)
Definition axis_size (w : widths) (T : nat) (obs : string * nat) (c : nat) (name : string) : nat :=
  if name == "dim_basis" then c else if name == "dim_basis'" then w_kernel w
  else if name \in [:: "dim_basis_force"; "dim_basis_force'"] then w_force w
  else if name == "time_kernel" then T else if name == "dim_basis_old" then w_old w
  else if name == "dim_x'" then w_x w else if name == obs.1 then obs.2 else w_x w.

Lemma in_opt (p : string * nat) (k : string) (v : option (value R)) :
  p \in ds_axes (opt_items k v) -> exists2 u, v = Some u & p \in value_axes u.
Proof. by case: v => [u|] //=; rewrite /ds_axes /= cats0; exists u. Qed.

Lemma sized w T obs o c : produced w T obs o -> (forall x, x \in basis_widths w o -> x = c) ->
  forall p, p \in ds_axes (pre_vars o ++ rest_vars o) -> p.2 = axis_size w T obs c p.1.
Proof.
case=> ob Hf Hg Hk [Hgk Him Hem HP] cE p.
rewrite /pre_vars /rest_vars !ds_axes_cat !mem_cat.
have obsE : obs.2 = axis_size w T obs c obs.1.
  by case: ob => [->|] //=; case: obs {Hf Hk} => l z /= ->.
have foE : (if obs.1 == "dim_basis" then ("dim_basis_force", obs.2)
            else if obs.1 == "dim_basis'" then ("dim_basis_force'", obs.2) else obs) = obs.
  by case: ob => [->|] //=; case: obs {Hf Hk obsE} => l z /= ->.
have xE : w_x w = axis_size w T obs c "dim_x".
  by case: ob => [->|] //=; case: obs {Hf Hk obsE foE} => l z /= ->.
case/orP; [case/orP|case/orP; last case/orP; last case/orP; last case/orP; last case/orP; last case/orP; last case/orP].
- case/in_opt=> u; case: (o_force_coeff o) Hf => //= a /eqP aE [<-] /=; rewrite aE /= !inE.
  by rewrite foE; case/orP=> /eqP->.
- case/in_opt=> u; case: (o_gram_force o) Hg => //= a /eqP aE [<-] /=; rewrite aE /= !inE.
  by case/orP=> /eqP->.
- by [].
- case/in_opt=> u; case kE: (o_kernel o) Hk => [a|] //= /eqP aE [<-] /=; rewrite aE /= !inE.
  have kc : w_corrs w = c by apply: cE; rewrite /basis_widths kE mem_cat inE eqxx.
  by case/or3P=> /eqP-> //=; rewrite kc.
- case/in_opt=> u; case kE: (o_inv_mass_coeff o) Him => [a|] //= /eqP aE [<-] /=; rewrite aE /= !inE.
  have kc : w_kernel w = c by apply: cE; rewrite /basis_widths kE !mem_cat !inE eqxx orbT.
  by case/orP=> /eqP-> //=; rewrite kc.
- case/in_opt=> u; case kE: (o_eff_mass o) Hem => [a|] //= /eqP aE [<-] /=; rewrite aE /= !inE.
  by case/orP=> /eqP->.
- case/in_opt=> u; case kE: (o_gram_kernel o) Hgk => [a|] //= /eqP aE [<-] /=; rewrite aE /= !inE.
  have kc : w_kernel w = c by apply: cE; rewrite /basis_widths kE !mem_cat !inE eqxx !orbT.
  by case/orP=> /eqP-> //=; rewrite kc.
- by case/in_opt=> u; case: (o_method o) => //= t [<-].
- by [].
- case/in_opt=> u; case kE: (o_P_range o) HP => [a|] //= /eqP aE [<-] /=; rewrite aE /= !inE.
  have kc : w_range w = c by apply: cE; rewrite /basis_widths kE !mem_cat !inE eqxx !orbT.
  by case/orP=> /eqP-> //=; rewrite kc.
Qed.

Lemma width_axis w T obs o x : produced w T obs o -> x \in basis_widths w o ->
  ("dim_basis", x) \in ds_axes (pre_vars o ++ rest_vars o).
Proof.
case=> ob Hf Hg Hk [Hgk Him Hem HP]; rewrite /basis_widths !mem_cat.
have opt k (a : option (darray R)) y ax : has_axes a ax -> ("dim_basis", y) \in ax -> y = x -> x \in present a y ->
    ("dim_basis", x) \in ds_axes (opt_items k (omap (@VArr R) a)).
  by case: a => [a|] //= /eqP aE + <-; rewrite /ds_axes /= cats0 aE.
rewrite /pre_vars /rest_vars !ds_axes_cat !mem_cat.
case/or4P=> xl.
- by rewrite (opt "kernel" _ _ _ Hk _ _ xl) ?orbT // ?inE ?eqxx ?orbT //; case: (o_kernel o) xl => //= ?; rewrite inE => /eqP.
- by rewrite (opt "inv_mass_coeff" _ _ _ Him _ _ xl) ?orbT // ?inE ?eqxx ?orbT //; case: (o_inv_mass_coeff o) xl => //= ?; rewrite inE => /eqP.
- by rewrite (opt "gram_kernel" _ _ _ Hgk _ _ xl) ?orbT // ?inE ?eqxx ?orbT //; case: (o_gram_kernel o) xl => //= ?; rewrite inE => /eqP.
- by rewrite (opt "P_range" _ _ _ HP _ _ xl) ?orbT // ?inE ?eqxx ?orbT //; case: (o_P_range o) xl => //= ?; rewrite inE => /eqP.
Qed.

Lemma own_opt k (a : option (darray R)) ax : has_axes a ax -> uniq (unzip1 ax) ->
  own_consistent (opt_items k (omap (@VArr R) a)).
Proof. by case: a => [a|] //= /eqP aE u; split=> //; apply: (@own_axes (VArr a)); rewrite /= aE. Qed.

Lemma own_rest w T obs o : produced w T obs o -> own_consistent (rest_vars o).
Proof.
case=> ob Hf Hg Hk [Hgk Him Hem HP]; rewrite /rest_vars !own_cat.
do !split=> //.
- by apply: own_opt Hk _; case: ob => [->|] //=; case: obs {Hf} => l z /= ->.
- exact: own_opt Him _.
- exact: own_opt Hem _.
- exact: own_opt Hgk _.
- by case: (o_method o).
- exact: own_opt HP _.
Qed.

Lemma pre_consistent w T obs o : produced w T obs o -> consistent (ds_axes (pre_vars o)).
Proof.
case=> ob Hf Hg Hk [Hgk Him Hem HP] p q.
have S r : r \in ds_axes (pre_vars o) -> r.2 = if r.1 == obs.1 then obs.2 else w_force w.
  rewrite /pre_vars ds_axes_cat mem_cat => /orP[] /in_opt[u].
    case: (o_force_coeff o) Hf => //= a /eqP aE [<-] /=; rewrite aE /= !inE.
    by case/orP=> /eqP->; case: ob => [->|] //=; case: obs {Hk aE} => l z /= ->.
  case: (o_gram_force o) Hg => //= a /eqP aE [<-] /=; rewrite aE /= !inE.
  by case/orP=> /eqP->; case: ob => [->|] //=; case: obs {Hf Hk} => l z /= ->.
by move=> /S-> /S-> ->.
Qed.

(** Saving succeeds exactly when the stored arrays with a basis axis have one width. *)
Lemma save_iff w T obs o : produced w T obs o ->
  (all_equal (basis_widths w o) -> save_model o = Ok (DS (attrs_of o) (vars_of o))) /\
  (~ all_equal (basis_widths w o) -> save_model o = Err ValueError).
Proof.
move=> H; rewrite (save_general H).
have aE := addableP (pre_consistent H) (own_rest H).
split=> [ae|nae].
  suff -> : addable (pre_vars o) (rest_vars o) by [].
  apply/aE => p q pl ql e.
  have cE x : x \in basis_widths w o -> x = head 0 (basis_widths w o).
    by move=> xl; apply: ae => //; case: (basis_widths w o) xl => //= y l _; rewrite inE eqxx.
  by rewrite (sized H cE pl) (sized H cE ql) e.
case: ifP => // /aE c; case: nae => x y /(width_axis H) xl /(width_axis H) yl.
exact: (c _ _ xl yl).
Qed.

(** ** Round trip *)
Lemma assoc_cat (T : Type) k (l l' : seq (string * T)) :
  assoc k (l ++ l') = if assoc k l is Some v then Some v else assoc k l'.
Proof. by rewrite /assoc filter_cat map_cat; case: (map _ _). Qed.

Lemma assoc_opt k k' (v : option (value R)) : assoc k (opt_items k' v) = if k' == k then v else None.
Proof. by case: v => [v|] /=; rewrite /assoc /=; case: eqP. Qed.

Lemma omapK (A : option (darray R)) (f : darray R -> darray R) :
  (if omap (fun a => VArr (f a)) A is Some v then Some v else None) = omap (fun a => VArr (f a)) A.
Proof. by case: A. Qed.

Lemma force_back w T obs o f : produced w T obs o -> o_force_coeff o = Some f ->
  rename "dim_basis_force" "dim_basis" (force_axes f) = Ok f.
Proof.
case=> ob Hf _ _ _ fE; move: Hf; rewrite fE /= => /eqP aE.
case: f fE aE => ax va co fE /= aE; rewrite /rename /force_axes aE /=.
by case: ob => [->|] //=; case: obs aE => l n aE /= ->.
Qed.

Lemma gram_back w T obs o g : produced w T obs o -> o_gram_force o = Some g ->
  (let! g := rename "dim_basis_force" "dim_basis" (force_axes g) in rename "dim_basis_force'" "dim_basis'" g) = Ok g.
Proof.
case=> ob _ Hg _ _ gE; move: Hg; rewrite gE /= => /eqP aE.
by case: g gE aE => ax va co gE /= ->.
Qed.

Lemma get_saved o : let d := DS (attrs_of o) (vars_of o) in
  [/\ get_arr d "force_coeff" = omap force_axes (o_force_coeff o),
      get_arr d "gram_force" = omap force_axes (o_gram_force o),
      get_arr d "kernel" = o_kernel o,
      get_bool d "rank_projection" = Some (o_rank_projection o)
    & get_arr d "P_range" = o_P_range o].
Proof.
rewrite /get_arr /get_bool /vars_of /ds_vars !assoc_cat !assoc_opt /=; split.
- by case: (o_force_coeff o).
- by case: (o_gram_force o).
- by case: (o_kernel o).
- by [].
- by case: (o_P_range o).
Qed.

Lemma load_saved (c : ctor) w T obs o : produced w T obs o ->
  let d := DS (attrs_of o) (vars_of o) in
  load_model c d [::] =
  (d, Ok (MObj (o_L_obs o) (o_dim_x o) (o_dim_obs o) (o_dt o) (o_trunc_ind o) (c_N c)
            (o_force_coeff o) (o_kernel o) None None (o_gram_force o) None None
            (o_rank_projection o) (o_P_range o)
            (c_Nf c (o_dim_x o) (o_dim_obs o)) (c_Nk c (o_dim_x o) (o_dim_obs o)))).
Proof.
move=> H d; rewrite /load_model; congr pair.
have [-> -> -> -> ->] := get_saved o.
have fb := force_back H; have gb := gram_back H.
have -> : construct c (foldl (fun l kv => set_assoc kv.1 kv.2 l) (ds_attrs d) [::]) =
   Ok (MObj (o_L_obs o) (o_dim_x o) (o_dim_obs o) (o_dt o) (o_trunc_ind o)
     (c_N c) None None None None None None None (c_rank c) None
     (c_Nf c (o_dim_x o) (o_dim_obs o)) (c_Nk c (o_dim_x o) (o_dim_obs o))) by [].
rewrite bindOk.
case fE: (o_force_coeff o) => [f|] /=; last first.
  case gE: (o_gram_force o) => [g|] //=; move: (gb _ gE).
  by case: (rename "dim_basis_force" "dim_basis" _) => //= g' ->.
rewrite (fb _ fE) /=.
case gE: (o_gram_force o) => [g|] //=; move: (gb _ gE).
by case: (rename "dim_basis_force" "dim_basis" _) => //= g' ->.
Qed.

Lemma save_load_back (c : ctor) w T obs o d : produced w T obs o -> save_model o = Ok d ->
  exists o', load_model c d [::] = (d, Ok o') /\
  [/\ [/\ o_force_coeff o' = o_force_coeff o, o_kernel o' = o_kernel o & o_gram_force o' = o_gram_force o],
      [/\ o_rank_projection o' = o_rank_projection o & o_P_range o' = o_P_range o],
      [/\ o_L_obs o' = o_L_obs o, o_dim_x o' = o_dim_x o & o_dim_obs o' = o_dim_obs o],
      [/\ o_dt o' = o_dt o & o_trunc_ind o' = o_trunc_ind o]
    & [/\ o_gram_kernel o' = None, o_inv_mass_coeff o' = None, o_eff_mass o' = None & o_method o' = None]].
Proof.
move=> H; rewrite (save_general H); case: ifP => // _ [<-].
by eexists; split; first exact: (load_saved c H).
Qed.

(** Extra arguments are written into the caller's Dataset. *)
Lemma assoc_set (T : Type) k (v : T) l : assoc k (set_assoc k v l) = Some v.
Proof.
rewrite /set_assoc; case: ifP => [|n].
  elim: l => [|p l IH] //=; rewrite /assoc /=; case: eqP => [_|/eqP ne] /=; first by rewrite eqxx.
  by rewrite (negbTE ne) => /IH.
rewrite -cats1 assoc_cat /assoc /= eqxx /=.
by elim: l n => [|p l IH] //= /negbT; rewrite negb_or => /andP[/negbTE-> /negbTE/IH].
Qed.

Lemma load_writes (c : ctor) (d : dataset R) k v :
  assoc k (ds_attrs d) <> Some v ->
  (load_model c d [:: (k, v)]).1 <> d /\ assoc k (ds_attrs (load_model c d [:: (k, v)]).1) = Some v.
Proof.
move=> ne; have E : assoc k (ds_attrs (load_model c d [:: (k, v)]).1) = Some v.
  exact: assoc_set.
by split=> // e; case: ne; rewrite -E e.
Qed.

Lemma saved_contents w T obs o d : produced w T obs o -> save_model o = Ok d ->
  [/\ assoc "eff_mass" (ds_vars d) = omap (@VArr R) (o_eff_mass o),
      assoc "gram_kernel" (ds_vars d) = omap (@VArr R) (o_gram_kernel o),
      assoc "inv_mass_coeff" (ds_vars d) = omap (@VArr R) (o_inv_mass_coeff o),
      assoc "method" (ds_vars d) = omap (VStr R) (o_method o)
    & assoc "N_basis_elt" (ds_vars d) = Some (VNat R (o_N_basis_elt o))].
Proof.
move=> H; rewrite (save_general H); case: ifP => // _ [<-] /=.
rewrite /vars_of !assoc_cat !assoc_opt /=; split=> //.
- by case: (o_eff_mass o).
- by case: (o_gram_kernel o).
- by case: (o_inv_mass_coeff o).
- by case: (o_method o).
Qed.

Lemma save_unprojected w T obs o : produced w T obs o -> o_P_range o = None -> w_corrs w = w_kernel w ->
  exists d, save_model o = Ok d.
Proof.
move=> H P0 e; eexists; apply: (save_iff H).1 => x y.
rewrite /basis_widths P0 e !mem_cat.
have pr (a : option (darray R)) n z : z \in present a n -> z = n by case: a => //= a; rewrite inE => /eqP.
by rewrite !in_nil !orbF => /or3P[] /pr-> /or3P[] /pr->.
Qed.

End Proofs.

Section Witness.
Variable R : realFieldType.
Local Open Scope string_scope.
Local Open Scope ring_scope.

Definition arr (ax : seq (string * nat)) : darray R := DArr ax [::] [::].

(** A model of the hybrid class in one dimension with two functions: the kernel has three
    rows, its Gram matrix two. *)
Definition hybrid_obj : mobj R :=
  MObj "a" 1 1 1 4 2 (Some (arr [:: ("dim_basis", 2%N); ("dim_x", 1%N)]))
    (Some (arr [:: ("time_kernel", 4%N); ("dim_basis", 3%N); ("dim_x", 1%N)])) None None
    (Some (arr [:: ("dim_basis", 2%N); ("dim_basis'", 2%N)]))
    (Some (arr [:: ("dim_basis", 2%N); ("dim_basis'", 2%N)])) (Some "rect") false None 2 3.
Definition hybrid_widths := Widths 2 3 2 0 0 1.

(** A model with range projection from three functions to two, whose Gram matrix was
    computed. *)
Definition projected_obj : mobj R :=
  MObj "a" 1 1 1 4 3 (Some (arr [:: ("dim_basis", 3%N); ("dim_x", 1%N)]))
    (Some (arr [:: ("time_kernel", 4%N); ("dim_basis", 2%N); ("dim_x", 1%N)])) None None None
    (Some (arr [:: ("dim_basis", 3%N); ("dim_basis'", 3%N)])) (Some "rect") true
    (Some (arr [:: ("dim_basis", 2%N); ("dim_basis_old", 3%N)])) 3 3.
Definition projected_widths := Widths 3 2 3 2 3 1.

Lemma hybrid_refuted :
  produced hybrid_widths 4 ("dim_x", 1%N) hybrid_obj /\ save_model hybrid_obj = Err ValueError.
Proof. by split=> //; split=> //; left. Qed.

Lemma projected_refuted :
  produced projected_widths 4 ("dim_x", 1%N) projected_obj /\ save_model projected_obj = Err ValueError.
Proof. by split=> //; split=> //; left. Qed.

Definition good_obj : mobj R :=
  MObj "a" 1 1 1 4 2 (Some (arr [:: ("dim_basis", 2%N); ("dim_x", 1%N)]))
    (Some (arr [:: ("time_kernel", 4%N); ("dim_basis", 2%N); ("dim_x", 1%N)])) None
    (Some (arr [:: ("dim_x'", 1%N); ("dim_x", 1%N)]))
    (Some (arr [:: ("dim_basis", 2%N); ("dim_basis'", 2%N)]))
    (Some (arr [:: ("dim_basis", 2%N); ("dim_basis'", 2%N)])) (Some "trapz") false None 2 2.

Lemma good_produced : produced (Widths 2 2 2 0 0 1) 4 ("dim_x", 1%N) good_obj.
Proof. by split=> //; left. Qed.
End Witness.
