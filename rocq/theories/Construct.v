(** * Building an estimator: gle_estimation.py:26-150 and the constructors of the model
    classes, models.py:38-93, 413-438, 470-476, 550-556, 582-585, 611-617, 666-673.

    A Dataset is what the constructor looks at: the dimensions, the attribute [dt], the time
    coordinate when there is one, and the shape of each column.  A dimension without
    coordinate is read by xarray as 0, 1, 2, ...  Basis objects live in a store, because the
    classes keep a reference to the object they are given, fit it in place and some clear
    its flag [const_removed].

    Simplifications: [L_obs] is looked up among the columns, not among the coordinates; of
    the description of the data only the number of coordinates is kept (the values are in
    Describe.v), and fitting a basis only sets its size; [saveall], [prefix], [verbose] and
    the methods copied on the estimator (lines 99-103) are left out. *)
From Coq Require Import String.
From mathcomp Require Import all_ssreflect all_algebra.
From Verif Require Import Base BasisVector SaveLoad.
Set Implicit Arguments.
Unset Strict Implicit.
Unset Printing Implicit Defensive.
Import Num.Theory.

Section Construct.
Variable R : realFieldType.
Local Open Scope string_scope.
Local Open Scope ring_scope.

Record dset := DSet {
  dims : seq (string * nat);
  attr_dt : option R;
  time_coord : option (seq R);
  cols : seq (string * seq nat) }.

(** [xva_arg]: nothing, one Dataset, a list, or an iterator that can be consumed once. *)
Inductive xva_arg := ANone | AOne of dset | AList of seq dset | AIter of seq dset.

(** Attributes of a basis object: [basis] and [deriv] callable; [n_output_features_] once
    fitted; [fit] as a function of the number of coordinates; [const_removed]. *)
Record basis_obj := BasisObj {
  callable : bool;
  n_out : option nat;
  fit : option (nat -> res nat);
  const_removed : option bool }.
Definition store := seq basis_obj.

Record model := Model {
  m_class : gle_class; m_basis : nat; m_dt : R; m_dim_x : nat; m_dim_obs : nat;
  m_trunc_ind : nat; m_L_obs : string;
  m_n : nat; m_n_force : nat; m_n_kernel : nat; m_rank_projection : bool }.

Record estimator := Est {
  e_list : seq dset; e_weights : seq nat; e_dt : R; e_trunc_ind : nat; e_model : model }.

(** models.py:411, 468, 548, 580, 609, 664 *)
Definition set_of_obs (c : gle_class) : seq string :=
  match c with
  | NoVel | Overdamped => [:: "x"; "v"]
  | _ => [:: "x"; "v"; "a"]
  end.

(** ** Reading a Dataset *)
Definition dim_size (d : dset) (k : string) : res nat :=
  if assoc k (dims d) is Some n then Ok n else Err KeyError.
Definition has_dim (d : dset) (k : string) : bool := k \in [seq p.1 | p <- dims d].
Definition has_col (d : dset) (k : string) : bool := k \in [seq p.1 | p <- cols d].

Definition times (d : dset) : res (seq R) :=
  if time_coord d is Some t then Ok t else
  let! n := dim_size d "time" in Ok (mkseq (fun i => i%:R) n).

Definition column (d : dset) (k : string) : res (seq nat) :=
  if assoc k (cols d) is Some s then Ok s else Err KeyError.

(** ** Checks, gle_estimation.py:105-125 *)
Definition check_one (d : dset) : res unit :=
  let! _ := guard (has_dim d "time") Documented in
  guard (if attr_dt d is Some _ then true else false) Documented.

(** The list the estimator keeps; an iterator is exhausted by the loop of lines 111-115. *)
Definition do_check (a : xva_arg) : res (option xva_arg) :=
  match a with
  | ANone => Ok None
  | AOne d => let! _ := mapM check_one [:: d] in Ok (Some (AList [:: d]))
  | AList l => let! _ := mapM check_one l in Ok (Some (AList l))
  | AIter l => let! _ := mapM check_one l in Ok (Some (AIter [::]))
  end.

Definition check_obs (obs : seq string) (L_obs : string) (l : seq dset) : res unit :=
  let! _ := mapM (fun d => mapM (fun c =>
    let! _ := guard (has_col d c) Documented in guard (has_col d L_obs) Documented) obs) l in
  Ok tt.

(** ** Truncation, gle_estimation.py:127-138 *)
Definition last_of (t : seq R) : res R := if t is x :: t' then Ok (last x t') else Err OutOfBounds.

Definition trunc_index (trunc : R) (l : seq dset) : res nat :=
  let! ts := mapM times l in
  let! lasts := mapM last_of ts in
  match lasts, ts with
  | x :: xs, t0 :: _ =>
      let smallest := foldl Num.min x xs in
      let trunc := if smallest < trunc then smallest else trunc in
      Ok (count (fun t => t <= trunc) t0)
  | _, _ => Err ValueError
  end.

(** ** Description of the data, gle_estimation.py:140-150, _data_describe.py:30-31.
    Shape of the per-coordinate arrays: [None] for the scalar obtained from a column with
    one axis; columns of three axes or more are refused here.  numpy broadcasts the shapes of
    two trajectories. *)
Definition describe_shape (d : dset) : res (option nat) :=
  let! s := column d "x" in
  match s with
  | [:: n] => let! _ := guard (0 < n)%N ValueError in Ok None
  | [:: n; k] => let! _ := guard ((0 < n) && (0 < k))%N ValueError in Ok (Some k)
  | _ => Err ShapeMismatch
  end.

Definition broadcast (a b : option nat) : res (option nat) :=
  match a, b with
  | Some x, Some y => if x == y then Ok (Some x) else if x == 1%N then Ok (Some y)
                      else if y == 1%N then Ok (Some x) else Err ValueError
  | Some x, None => Ok (Some x)
  | None, y => Ok y
  end.

Definition describe_all (l : seq dset) : res (option nat) :=
  let! s := mapM describe_shape l in
  match s with
  | [::] => Err OutOfBounds
  | a :: s => foldl (fun acc b => let! acc := acc in broadcast acc b) (Ok a) s
  end.

(** ** The model, models.py:38-93.  [describe]: shape of the description of the data, or
    nothing (then the dimension is used, line 88). *)
Definition check_basis (h : store) (l : nat) (dim_x : nat) (describe : option (option nat)) : res (store * nat) :=
  let! b := rd h l in
  let! _ := guard (callable b) Documented in
  if n_out b is Some n then Ok (h, n) else
  if fit b is Some f then
    let! d := (match describe with Some (Some d) => Ok d | Some None => Err OutOfBounds | None => Ok dim_x end) in
    let! n := f d in
    let! h := wr h l (BasisObj (callable b) (Some n) (fit b) (const_removed b)) in
    Ok (h, n)
  else Err Documented.

Definition new_model (c : gle_class) (h : store) (l : nat) (dt : R) (dim_x dim_obs trunc_ind : nat)
    (L_obs : string) (describe : option (option nat)) : res (store * model) :=
  let! hn := check_basis h l dim_x describe in
  let: (h, n) := hn in
  let! b := rd h l in
  let mk flag rk := Model c l dt dim_x dim_obs trunc_ind L_obs n
                      (n_force c n flag dim_x) (n_kernel c n flag dim_x dim_obs) rk in
  if c is ConstKernel then Ok (h, mk false false) else
  if const_removed b is Some flag then
    match c with
    | PosGle | WithFriction => Ok (h, mk flag (~~ flag))
    | _ => let! h := wr h l (BasisObj (callable b) (n_out b) (fit b) (Some false)) in Ok (h, mk flag false)
    end
  else Err AttributeError.

(** ** The estimator, gle_estimation.py:26-97 *)
Definition new_estimator (h : store) (a : xva_arg) (c : gle_class) (bl : nat) (trunc : R)
    (L_obs : option string) : res (store * option estimator) :=
  let! l := do_check a in
  match l with
  | None => Ok (h, None)
  | Some (AList l) =>
      let! ws := mapM (fun d => let! t := times d in Ok (size t)) l in
      let L_obs := if L_obs is Some k then k else last "" (set_of_obs c) in
      let! d0 := rd l 0 in
      let! dim_x := dim_size d0 "dim_x" in
      let! s := column d0 L_obs in
      let! dim_obs := rd s 1 in
      let! dt := (if attr_dt d0 is Some dt then Ok dt else Err KeyError) in
      let! trunc_ind := trunc_index trunc l in
      let! describe := describe_all l in
      let! hm := new_model c h bl dt dim_x dim_obs trunc_ind L_obs (Some describe) in
      let: (h, m) := hm in
      let! _ := check_obs (set_of_obs c) (m_L_obs m) l in
      Ok (h, Some (Est l ws dt trunc_ind m))
  | Some _ => Err TypeError
  end.

End Construct.
