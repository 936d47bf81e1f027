(** * Saving and loading a model: models.py:365-402 ([save_model], [load_model]).

    An array is its named axes with their sizes, its values and the values of its
    coordinate; a Dataset is a list of attributes and a list of variables.  As in xarray,
    an axis has one size in a Dataset: adding an array that contradicts it raises
    ValueError, and so does renaming an axis that is absent. *)
From Coq Require Import String.
From mathcomp Require Import all_ssreflect all_algebra.
From Verif Require Import Base.
Set Implicit Arguments.
Unset Strict Implicit.
Unset Printing Implicit Defensive.

Lemma string_eqP : Equality.axiom String.eqb.
Proof. by move=> x y; apply: (iffP idP) => /String.eqb_eq. Qed.
Definition string_eqMixin := EqMixin string_eqP.
Canonical string_eqType := EqType string string_eqMixin.

Section SaveLoad.
Variable R : realFieldType.
Local Open Scope string_scope.

Record darray := DArr { axes : seq (string * nat); values : seq R; coord : seq R }.

Inductive value := VArr of darray | VNum of R | VNat of nat | VStr of string | VBool of bool.

(** Attributes set by the constructors (models.py:52-76 and the classes) and by the
    estimator. *)
Record mobj := MObj {
  o_L_obs : string; o_dim_x : nat; o_dim_obs : nat; o_dt : R; o_trunc_ind : nat;
  o_N_basis_elt : nat;
  o_force_coeff : option darray; o_kernel : option darray;
  o_inv_mass_coeff : option darray; o_eff_mass : option darray;
  o_gram_force : option darray; o_gram_kernel : option darray;
  o_method : option string; o_rank_projection : bool; o_P_range : option darray;
  o_N_basis_elt_force : nat; o_N_basis_elt_kernel : nat }.

Record dataset := DS { ds_attrs : seq (string * value); ds_vars : seq (string * value) }.

Definition assoc (T : Type) (k : string) (l : seq (string * T)) : option T :=
  ohead [seq p.2 | p <- l & p.1 == k].

Definition set_assoc (T : Type) (k : string) (v : T) (l : seq (string * T)) : seq (string * T) :=
  if has (fun p => p.1 == k) l then [seq if p.1 == k then (k, v) else p | p <- l] else rcons l (k, v).

(** [DataArray.rename] of one axis. *)
Definition rename (old new : string) (a : darray) : res darray :=
  let names := unzip1 (axes a) in
  let! _ := guard (old \in names) ValueError in
  let! _ := guard ((new == old) || (new \notin names)) ValueError in
  Ok (DArr [seq if p.1 == old then (new, p.2) else p | p <- axes a] (values a) (coord a)).

Definition value_axes (v : value) : seq (string * nat) := if v is VArr a then axes a else [::].
Definition ds_axes (vs : seq (string * value)) : seq (string * nat) := flatten [seq value_axes p.2 | p <- vs].

(** [Dataset.update({key: v})] *)
Definition update (d : dataset) (k : string) (v : value) : res dataset :=
  let others := [seq p <- ds_vars d | p.1 != k] in
  let! _ := guard (all (fun p => all (fun q => (p.1 != q.1) || (p.2 == q.2)) (ds_axes others)) (value_axes v))
                  ValueError in
  Ok (DS (ds_attrs d) (set_assoc k v (ds_vars d))).

(** [self.__dict__.items()], in the order of the assignments of the constructor;
    [None] values, which line 377 skips, are left out, and so is [basis]. *)
Definition opt_items (k : string) (v : option value) : seq (string * value) :=
  if v is Some v then [:: (k, v)] else [::].

Definition obj_dict (o : mobj) : seq (string * value) :=
  [:: ("L_obs", VStr (o_L_obs o)); ("dim_x", VNat (o_dim_x o)); ("dim_obs", VNat (o_dim_obs o));
      ("dt", VNum (o_dt o)); ("trunc_ind", VNat (o_trunc_ind o)); ("N_basis_elt", VNat (o_N_basis_elt o))]
  ++ opt_items "force_coeff" (omap VArr (o_force_coeff o))
  ++ opt_items "kernel" (omap VArr (o_kernel o))
  ++ opt_items "inv_mass_coeff" (omap VArr (o_inv_mass_coeff o))
  ++ opt_items "eff_mass" (omap VArr (o_eff_mass o))
  ++ opt_items "gram_force" (omap VArr (o_gram_force o))
  ++ opt_items "gram_kernel" (omap VArr (o_gram_kernel o))
  ++ opt_items "method" (omap VStr (o_method o))
  ++ [:: ("rank_projection", VBool (o_rank_projection o))]
  ++ opt_items "P_range" (omap VArr (o_P_range o))
  ++ [:: ("N_basis_elt_force", VNat (o_N_basis_elt_force o)); ("N_basis_elt_kernel", VNat (o_N_basis_elt_kernel o))].

(** models.py:365-381 *)
Definition excluded : seq string :=
  [:: "basis"; "force_coeff"; "gram_force"; "N_basis_elt_force"; "N_basis_elt_kernel"].

Definition save_model (o : mobj) : res dataset :=
  let d := DS [:: ("dt", VNum (o_dt o)); ("trunc_ind", VNat (o_trunc_ind o)); ("L_obs", VStr (o_L_obs o));
                  ("dim_x", VNat (o_dim_x o)); ("dim_obs", VNat (o_dim_obs o))] [::] in
  let! d := if o_force_coeff o is Some f then
              let! f := rename "dim_basis" "dim_basis_force" f in update d "force_coeff" (VArr f)
            else Ok d in
  let! d := if o_gram_force o is Some g then
              let! g := rename "dim_basis" "dim_basis_force" g in
              let! g := rename "dim_basis'" "dim_basis_force'" g in update d "gram_force" (VArr g)
            else Ok d in
  foldl (fun d kv => let! d := d in
           if (kv.1 \notin unzip1 (ds_attrs d)) && (kv.1 \notin excluded) then update d kv.1 kv.2 else Ok d)
        (Ok d) (obj_dict o).

(** The attributes of a new object: models.py:52-76 and the classes, as a function of the
    constructor's arguments. *)
Record ctor := Ctor {
  c_N : nat; c_Nf : nat -> nat -> nat; c_Nk : nat -> nat -> nat; c_rank : bool }.

Definition as_nat (v : option value) : res nat := if v is Some (VNat n) then Ok n else Err TypeError.
Definition as_num (v : option value) : res R := if v is Some (VNum n) then Ok n else Err TypeError.
Definition as_str (v : option value) : res string := if v is Some (VStr n) then Ok n else Err TypeError.

Definition construct (c : ctor) (args : seq (string * value)) : res mobj :=
  let! dt := as_num (assoc "dt" args) in
  let! tr := as_nat (assoc "trunc_ind" args) in
  let! L := as_str (assoc "L_obs" args) in
  let! dx := as_nat (assoc "dim_x" args) in
  let! o := as_nat (assoc "dim_obs" args) in
  Ok (MObj L dx o dt tr (c_N c) None None None None None None None (c_rank c) None (c_Nf c dx o) (c_Nk c dx o)).

Definition get_arr (d : dataset) (k : string) : option darray :=
  if assoc k (ds_vars d) is Some (VArr a) then Some a else None.
Definition get_bool (d : dataset) (k : string) : option bool :=
  if assoc k (ds_vars d) is Some (VBool b) then Some b else None.

(** models.py:383-402: the attributes of the caller's Dataset are used and updated in place
    ([cls_attrs = coeffs.attrs]); returned with the model. *)
Definition load_model (c : ctor) (d : dataset) (kwargs : seq (string * value)) : dataset * res mobj :=
  let attrs := foldl (fun l kv => set_assoc kv.1 kv.2 l) (ds_attrs d) kwargs in
  (DS attrs (ds_vars d),
   let! o := construct c attrs in
   let force := get_arr d "force_coeff" in
   let gram := get_arr d "gram_force" in
   let! force := if force is Some f then let! f := rename "dim_basis_force" "dim_basis" f in Ok (Some f)
                 else Ok None in
   let! gram := if gram is Some g then
                  let! g := rename "dim_basis_force" "dim_basis" g in
                  let! g := rename "dim_basis_force'" "dim_basis'" g in Ok (Some g)
                else Ok None in
   Ok (MObj (o_L_obs o) (o_dim_x o) (o_dim_obs o) (o_dt o) (o_trunc_ind o) (o_N_basis_elt o)
            force (get_arr d "kernel") None None gram None None
            (odflt (o_rank_projection o) (get_bool d "rank_projection")) (get_arr d "P_range")
            (o_N_basis_elt_force o) (o_N_basis_elt_kernel o))).

End SaveLoad.
