(** * Property C66: saving and loading; fields restored, for C31. *)
From Coq Require Import String.
From mathcomp Require Import all_ssreflect all_algebra.
From Verif Require Import Base SaveLoad SaveLoadProofs.
Set Implicit Arguments.
Unset Strict Implicit.
Unset Printing Implicit Defensive.
Local Open Scope string_scope.

(** ** C31: what comes back, field by field *)
Theorem C31_fields_partial (R : realFieldType) (c : ctor) w T obs (o : mobj R) d :
  produced w T obs o -> save_model o = Ok d ->
  exists o', load_model c d [::] = (d, Ok o') /\
  [/\ [/\ o_force_coeff o' = o_force_coeff o, o_kernel o' = o_kernel o & o_gram_force o' = o_gram_force o],
      [/\ o_rank_projection o' = o_rank_projection o & o_P_range o' = o_P_range o],
      [/\ o_L_obs o' = o_L_obs o, o_dim_x o' = o_dim_x o & o_dim_obs o' = o_dim_obs o],
      [/\ o_dt o' = o_dt o & o_trunc_ind o' = o_trunc_ind o]
    & [/\ o_gram_kernel o' = None, o_inv_mass_coeff o' = None, o_eff_mass o' = None & o_method o' = None]].
Proof. exact: save_load_back. Qed.
Print Assumptions C31_fields_partial.

(** ** C66 (false: finding F57) *)
Theorem C66_save_condition (R : realFieldType) w T obs (o : mobj R) :
  produced w T obs o ->
  (all_equal (basis_widths w o) -> exists d, save_model o = Ok d) /\
  (~ all_equal (basis_widths w o) -> save_model o = Err ValueError).
Proof. by move=> /save_iff[a b]; split=> // /a->; eexists. Qed.
Print Assumptions C66_save_condition.

Theorem C66_unprojected_partial (R : realFieldType) w T obs (o : mobj R) :
  produced w T obs o -> o_P_range o = None -> w_corrs w = w_kernel w -> exists d, save_model o = Ok d.
Proof. exact: save_unprojected. Qed.
Print Assumptions C66_unprojected_partial.

Theorem C66_contents (R : realFieldType) w T obs (o : mobj R) d :
  produced w T obs o -> save_model o = Ok d ->
  [/\ assoc "eff_mass" (ds_vars d) = omap (@VArr R) (o_eff_mass o),
      assoc "gram_kernel" (ds_vars d) = omap (@VArr R) (o_gram_kernel o),
      assoc "inv_mass_coeff" (ds_vars d) = omap (@VArr R) (o_inv_mass_coeff o),
      assoc "method" (ds_vars d) = omap (VStr R) (o_method o)
    & assoc "N_basis_elt" (ds_vars d) = Some (VNat R (o_N_basis_elt o))].
Proof. exact: saved_contents. Qed.
Print Assumptions C66_contents.

(** A model with every array but the inverse mass and the projection. *)
Example C66_example (R : realFieldType) :
  produced (Widths 2 2 2 0 0 1) 4 ("dim_x", 1) (good_obj R) /\ exists d, save_model (good_obj R) = Ok d.
Proof. by split; [exact: good_produced|apply: save_unprojected (good_produced R) _ _]. Qed.

Theorem C66_hybrid_refuted (R : realFieldType) :
  exists w T obs (o : mobj R), produced w T obs o /\ save_model o = Err ValueError.
Proof. by exists hybrid_widths, 4, ("dim_x", 1), (hybrid_obj R); exact: hybrid_refuted. Qed.
Print Assumptions C66_hybrid_refuted.

Theorem C66_projected_refuted (R : realFieldType) :
  exists w T obs (o : mobj R),
    [/\ produced w T obs o, o_rank_projection o, w_range w = w_corrs w & save_model o = Err ValueError].
Proof. by exists projected_widths, 4, ("dim_x", 1), (projected_obj R); have [] := projected_refuted R. Qed.
Print Assumptions C66_projected_refuted.

(** Arguments given to [load_model] end up in the saved data. *)
Theorem C66_load_refuted (R : realFieldType) (c : ctor) (d : dataset R) k v :
  assoc k (ds_attrs d) <> Some v ->
  (load_model c d [:: (k, v)]).1 <> d /\ assoc k (ds_attrs (load_model c d [:: (k, v)]).1) = Some v.
Proof. exact: load_writes. Qed.
Print Assumptions C66_load_refuted.
