(** * Properties C67 and C68: building estimators. *)
From Coq Require Import String List.
From mathcomp Require Import all_ssreflect all_algebra.
From Verif Require Import Base BasisVector SaveLoad Construct ConstructProofs.
Set Implicit Arguments.
Unset Strict Implicit.
Unset Printing Implicit Defensive.
Import GRing.Theory Num.Theory.
Local Open Scope string_scope.
Local Open Scope seq_scope.
Local Open Scope ring_scope.

(** ** C67 (false: finding F58) *)

(** Whatever is accepted has all that the class needs, and the estimator describes it. *)
Theorem C67_accepted (R : realFieldType) h (a : xva_arg R) c bl trunc L h' e :
  new_estimator h a c bl trunc L = Ok (h', Some e) ->
  exists d0 l', let l := d0 :: l' in
  [/\ given a l /\ e_list e = l,
      forall d, List.In d l -> usable c (obs_name c L) d,
      exists2 ts, mapM (@times R) l = Ok ts & e_weights e = map size ts,
      [/\ attr_dt d0 = Some (e_dt e), assoc "dim_x" (dims d0) = Some (m_dim_x (e_model e))
        & exists n s, assoc (obs_name c L) (cols d0) = Some [:: n, m_dim_obs (e_model e) & s]]
    & [/\ m_class (e_model e) = c, m_basis (e_model e) = bl, m_dt (e_model e) = e_dt e,
          m_trunc_ind (e_model e) = e_trunc_ind e & m_L_obs (e_model e) = obs_name c L]].
Proof. exact: accepted. Qed.
Print Assumptions C67_accepted.

Theorem C67_trunc (R : realFieldType) h (a : xva_arg R) c bl trunc L h' e :
  new_estimator h a c bl trunc L = Ok (h', Some e) ->
  exists t0 ts cut,
  [/\ mapM (@times R) (e_list e) = Ok (t0 :: ts), e_trunc_ind e = count (fun t => t <= cut) t0,
      cut <= trunc /\ forall t x, List.In t (t0 :: ts) -> cut <= last x t
    & cut = trunc \/ exists2 t, List.In t (t0 :: ts) & forall x, cut = last x t].
Proof. exact: accepted_trunc. Qed.
Print Assumptions C67_trunc.

(** Data as [xframe] and [compute_va] produce them are accepted. *)
Theorem C67_accepts (R : realFieldType) h (a : xva_arg R) l c bl trunc L dim b :
  given a l -> l <> [::] ->
  (forall d, List.In d l -> readable dim d /\ usable c (obs_name c L) d) ->
  (forall d, ohead l = Some d -> two_axes (obs_name c L) d) ->
  rd h bl = Ok b -> basis_ok c b dim ->
  exists h' e, new_estimator h a c bl trunc L = Ok (h', Some e).
Proof. exact: accepts. Qed.
Print Assumptions C67_accepts.

Theorem C67_documented_time (R : realFieldType) h (a : xva_arg R) l c bl trunc L :
  given a l \/ a = AIter l ->
  (exists2 d, List.In d l & ~~ has_dim d "time" \/ attr_dt d = None) ->
  new_estimator h a c bl trunc L = Err Documented.
Proof. exact: refused_time. Qed.
Print Assumptions C67_documented_time.

(** A missing column, when the first trajectory has the observable. *)
Theorem C67_documented_column_partial (R : realFieldType) h (a : xva_arg R) d0 l c bl trunc L dim b :
  given a (d0 :: l) -> (forall d, List.In d (d0 :: l) -> readable dim d) -> two_axes (obs_name c L) d0 ->
  rd h bl = Ok b -> basis_ok c b dim ->
  (exists2 d, List.In d (d0 :: l) & (exists2 k, k \in set_of_obs c & ~~ has_col d k) \/ ~~ has_col d (obs_name c L)) ->
  new_estimator h a c bl trunc L = Err Documented.
Proof. exact: refused_column. Qed.
Print Assumptions C67_documented_column_partial.

Section Data.
Variable R : realFieldType.

(** Two samples in dimension [dim]. *)
Definition frame (dim : nat) (dt : R) : dset R :=
  DSet [:: ("time", 2%N); ("dim_x", dim)] (Some dt) None
    [:: ("x", [:: 2%N; dim]); ("v", [:: 2%N; dim]); ("a", [:: 2%N; dim])].
(** Without accelerations. *)
Definition frame_v (dt : R) : dset R :=
  DSet [:: ("time", 2%N); ("dim_x", 1%N)] (Some dt) None [:: ("x", [:: 2%N; 1%N]); ("v", [:: 2%N; 1%N])].

(** LinearFeatures; PolynomialFeatures of degree 2 with the constant removed. *)
Definition linear : basis_obj := BasisObj true None (Some (fun d => Ok d)) (Some false).
Definition polynomial : basis_obj := BasisObj true None (Some (fun d => Ok (d * 3)%N)) (Some true).

Lemma frame_readable dim dt : (0 < dim)%N -> readable dim (frame dim dt).
Proof. by move=> ?; exists 2%N, [:: 0; 1]; split=> //; split=> //; exists dt. Qed.
Lemma frame_usable c dim dt : usable c (obs_name c None) (frame dim dt).
Proof. by split=> //; [exists dt|move=> k; case: c; rewrite !inE => /or3P[] /eqP-> || rewrite !inE => /orP[] /eqP->|case: c]. Qed.
Lemma frame_v_readable dt : readable 1 (frame_v dt).
Proof. by exists 2%N, [:: 0; 1]; split=> //; split=> //; exists dt. Qed.
End Data.

(** Two trajectories, a basis not fitted yet, every class. *)
Example C67_example (R : realFieldType) c (trunc : R) :
  exists h' e, new_estimator [:: linear] (AList [:: frame 2 (1 : R); frame 2 1]) c 0 trunc None = Ok (h', Some e).
Proof.
apply: (@accepts R _ _ [:: frame 2 1; frame 2 1] c 0 trunc None 2 linear) => //; first by left.
- by move=> d; case=> [<-|[<-|[]]]; split; by [apply: frame_readable|apply: frame_usable].
- by move=> d [<-]; exists 2%N, 2%N; case: c.
- by split=> //; [right; exists (fun d => Ok d), 2%N|right; exists false].
Qed.

(** The observable missing from the first trajectory: KeyError instead of the exception. *)
Theorem C67_observable_refuted (R : realFieldType) :
  exists h (l : seq (dset R)) c bl trunc,
  [/\ forall d, List.In d l -> readable 1 d, basis_ok c (nth linear h bl) 1,
      exists2 d, List.In d l & ~~ has_col d (obs_name c None)
    & new_estimator h (AList l) c bl trunc None = Err KeyError].
Proof.
exists [:: linear], [:: frame_v 1], PosGle, 0%N, 1; split.
- by move=> d [<-|[]]; apply: frame_v_readable.
- by split=> //; [right; exists (fun d => Ok d), 1%N|right; exists false].
- by exists (frame_v 1) => //; left.
- by apply: missing_observable => // d [<-|[]]; exists 1%N; apply: frame_v_readable.
Qed.
Print Assumptions C67_observable_refuted.

(** Iterable collections other than lists: consumed by the check. *)
Theorem C67_iterator_refuted (R : realFieldType) h (l : seq (dset R)) c bl trunc L :
  (forall d, List.In d l -> exists dim, readable dim d) ->
  new_estimator h (AIter l) c bl trunc L = Err TypeError.
Proof. exact: iterator_refused. Qed.
Print Assumptions C67_iterator_refuted.

(** Trajectories with different time steps are accepted; the first one's is used for all. *)
Theorem C67_time_step_refuted (R : realFieldType) :
  exists h (l : seq (dset R)) c bl trunc h' e,
  new_estimator h (AList l) c bl trunc None = Ok (h', Some e) /\
  exists d dt, [/\ List.In d l, attr_dt d = Some dt & dt <> e_dt e].
Proof.
pose l := [:: frame 1 (1 : R); frame 1 (2%:R : R)].
have [|||||h' [e E]] := @accepts R [:: linear] (AList l) l PosGle 0 1 None 1 linear (or_introl erefl).
- by [].
- by move=> d; case=> [<-|[<-|[]]]; split; by [apply: frame_readable|apply: frame_usable].
- by move=> d [<-]; exists 2%N, 1%N.
- by [].
- by split=> //; [right; exists (fun d => Ok d), 1%N|right; exists false].
exists [:: linear], l, PosGle, 0%N, 1, h', e; split=> //; exists (frame 1 2%:R), 2%:R; split=> //; first by right; left.
have [d0 [l' [[ga el] _ _ [] ]]] := accepted E.
case: ga => [[<- _] /= [<-] _ _ _|[d [//]]].
by move=> /eqP; rewrite -subr_eq0 -[X in _ - X]/(1%:R) -natrB // oner_eq0.
Qed.
Print Assumptions C67_time_step_refuted.

(** Positions in dimension one and two are accepted together. *)
Theorem C67_dimension_refuted (R : realFieldType) :
  exists h (l : seq (dset R)) c bl trunc h' e d1 d2 s1 s2 n1 n2,
  [/\ new_estimator h (AList l) c bl trunc None = Ok (h', Some e), List.In d1 l /\ List.In d2 l,
      assoc "x" (cols d1) = Some [:: s1; n1], assoc "x" (cols d2) = Some [:: s2; n2] & n1 <> n2].
Proof.
exists [:: linear], [:: frame 1 1; frame 2 1], PosGle, 0%N, 1.
do 2!eexists; exists (frame 1 1), (frame 2 1), 2%N, 2%N, 1%N, 2%N; split=> //.
by split; [left|right; left].
Qed.
Print Assumptions C67_dimension_refuted.

(** ** C68 (false: finding F59) *)

(** The sizes recorded by a new model are those of its basis object. *)
Theorem C68_fresh (R : realFieldType) h (a : xva_arg R) c bl trunc L h' e :
  new_estimator h a c bl trunc L = Ok (h', Some e) -> consistent h' (e_model e).
Proof. exact: fresh_consistent. Qed.
Print Assumptions C68_fresh.

(** They remain so through any later construction on another object, or by a class that
    leaves the flag alone, or when the flag is already cleared. *)
Theorem C68_step_partial (R : realFieldType) h (a : xva_arg R) c bl trunc L h' r (m : model R) :
  new_estimator h a c bl trunc L = Ok (h', r) -> consistent h m ->
  [\/ m_basis m != bl, keeps_flag c | forall b, rd h bl = Ok b -> const_removed b = Some false] ->
  consistent h' m.
Proof. exact: consistent_step. Qed.
Print Assumptions C68_step_partial.

Theorem C68_build_partial (R : realFieldType) (rs : seq (request R)) h h' es :
  (forall r b, List.In r rs -> keeps_flag (r_class r) \/ (rd h (r_basis r) = Ok b -> const_removed b = Some false)) ->
  build h rs = Ok (h', es) -> forall e, List.In (Some e) es -> consistent h' (e_model e).
Proof. exact: build_consistent. Qed.
Print Assumptions C68_build_partial.

(** Three estimators on one polynomial basis with the constant removed. *)
Example C68_example (R : realFieldType) :
  exists h' es, build [:: polynomial] [:: Req (AOne (frame 1 (1 : R))) PosGle 0 1 None;
    Req (AOne (frame 1 1)) WithFriction 0 1 None; Req (AOne (frame 1 1)) ConstKernel 0 1 (Some "v")] = Ok (h', es)
  /\ size es = 3%N.
Proof. by do 2!eexists; split; first by rewrite /build /new_estimator /=; reflexivity. Qed.

(** An overdamped model built on the basis of a [Pos_gle] model clears the flag under it:
    [deriv] now has three columns where the first model recorded two. *)
Theorem C68_shared_refuted (R : realFieldType) :
  exists h (r1 r2 : request R) h' e1 e2,
  [/\ build h [:: r1; r2] = Ok (h', [:: Some e1; Some e2]), ~ consistent h' (e_model e1)
    & exists b, [/\ rd h' (m_basis (e_model e1)) = Ok b, n_out b = Some 3%N, const_removed b = Some false
                  & m_n_kernel (e_model e1) = 2%N]].
Proof.
exists [:: polynomial], (Req (AOne (frame 1 1)) PosGle 0 1 None), (Req (AOne (frame 1 1)) Overdamped 0 1 None).
do 3!eexists; split; first by rewrite /build /new_estimator /=; reflexivity.
- by case=> b /= [<-] [_ [r [<-] [/= ]]].
- by eexists; split; first by reflexivity.
Qed.
Print Assumptions C68_shared_refuted.

(** A fitted basis is not fitted again: on data of dimension two, a basis fitted in dimension
    one keeps one function. *)
Theorem C68_refit_refuted (R : realFieldType) :
  exists h (r1 r2 : request R) h' e1 e2 f b,
  [/\ build h [:: r1; r2] = Ok (h', [:: Some e1; Some e2]), rd h (r_basis r2) = Ok b, fit b = Some f
    & f (m_dim_x (e_model e2)) <> Ok (m_n (e_model e2))].
Proof.
exists [:: linear], (Req (AOne (frame 1 1)) PosGle 0 1 None), (Req (AOne (frame 2 1)) PosGle 0 1 None).
do 5!eexists; split; first by rewrite /build /new_estimator /=; reflexivity.
- by reflexivity.
- by reflexivity.
- by [].
Qed.
Print Assumptions C68_refit_refuted.
