(** * Basis vectors of the model classes: VolterraBasis/models.py:405-746, and composite
    bases: VolterraBasis/basis/_basis_features.py:231-266, _multidim_basis.py:10-96.

    One sample is modelled (see Basis.v).  A basis object is its arrays, as functions of the
    flag [const_removed], which the model classes overwrite. *)
From Coq Require Import Reals.
From mathcomp Require Import all_ssreflect.
From Verif Require Import Base Colored Basis.
Set Implicit Arguments.
Unset Strict Implicit.
Unset Printing Implicit Defensive.
Local Open Scope R_scope.

Definition point := nat -> R.
(** An array with its number of columns. *)
Definition arr := (nat * tens)%type.
(** [np.concatenate(..., axis=1)], [xr.concat(..., dim="dim_basis")]. *)
Definition cat_arr (a b : arr) : arr :=
  ((a.1 + b.1)%N,
   fun idx => if (head 0%N idx < a.1)%N then a.2 idx else b.2 ((head 0%N idx - a.1)%N :: behead idx)).

Record obj := Obj {
  flag : bool;                                   (* const_removed *)
  fn : point -> arr;                             (* basis *)
  dfn : bool -> point -> arr;                    (* deriv, at the current flag *)
  hfn : bool -> point -> arr }.                  (* hessian *)
Definition set_flag (b : bool) (o : obj) : obj := Obj b (fn o) (dfn o) (hfn o).
Definition deriv (o : obj) := dfn o (flag o).
Definition hessian (o : obj) := hfn o (flag o).

(** ** The global bases as objects *)
Definition lin_obj (dim : nat) (centered : bool) (mean : point) : obj :=
  Obj false (fun x => (dim, lin_basis dim (lin_mean centered mean) x))
    (fun _ x => (dim, lin_deriv dim 1 x)) (fun _ x => (dim, lin_hessian dim x)).
Definition poly_obj (P : nat -> seq R) (deg dim : nat) (remove_const : bool) : obj :=
  Obj remove_const (fun x => ((dim * deg.+1)%N, poly_basis P deg dim x))
    (fun rc x => ((dim * (deg.+1 - bint rc))%N, poly_deriv P deg dim rc 1 x))
    (fun rc x => ((dim * (deg.+1 - bint rc))%N, poly_hessian P deg dim rc x)).
Definition four_obj (order : nat) (freq : R) (dim : nat) (remove_const : bool) : obj :=
  Obj remove_const (fun x => ((dim * four_order order)%N, four_basis order freq dim x))
    (fun rc x => ((dim * (four_order order - bint rc))%N, four_deriv order freq dim rc 1 x))
    (fun rc x => ((dim * (four_order order - bint rc))%N, four_hessian order freq dim rc x)).

(** ** basis_vector(xva, compute_for="corrs") *)
(** [xr.dot(dbk, xva["v"], dims=["dim_x"])]. *)
Definition dot1 (dim : nat) (d : arr) (v : point) : arr :=
  (d.1, fun idx => rsum dim (fun i => d.2 [:: head 0%N idx; i] * v i)).
(** [xr.dot(ddbk, v, v')]. *)
Definition dot2 (dim : nat) (h : arr) (v : point) : arr :=
  (h.1, fun idx => rsum dim (fun i => rsum dim (fun j => h.2 [:: head 0%N idx; i; j] * v i * v j))).
Definition add_arr (a b : arr) : arr := (a.1, fun idx => a.2 idx + b.2 idx).
(** [xva["v"].rename({"dim_x": "dim_basis"})]. *)
Definition as_cols (dim : nat) (v : point) : arr := (dim, fun idx => v (head 0%N idx)).

Inductive gle_class := PosGle | WithFriction | NoVel | ConstKernel | Hybrid | Overdamped.
(** The constructors of the position-only and hybrid classes clear the flag (models.py:554-556,
    618-620, 672-674). *)
Definition init_basis (c : gle_class) (o : obj) : obj :=
  match c with NoVel | Hybrid | Overdamped => set_flag false o | _ => o end.

(** (force basis, kernel basis, time derivative of the kernel basis); models.py:442-460, 482-499,
    558-572, 588-601, 622-640, 677-692. *)
Definition corrs_vector (c : gle_class) (o : obj) (dim : nat) (x v a : point) : arr * arr * arr :=
  let bk := fn o x in
  let dbk := deriv o x in
  match c with
  | PosGle => (bk, dot1 dim dbk v, add_arr (dot1 dim dbk a) (dot2 dim (hessian o x) v))
  | WithFriction =>
      let Evel := dot1 dim dbk v in
      (cat_arr bk Evel, Evel, add_arr (dot1 dim dbk a) (dot2 dim (hessian o x) v))
  | NoVel | Overdamped => (bk, bk, dot1 dim dbk v)
  | ConstKernel => (bk, as_cols dim v, as_cols dim a)
  | Hybrid => (bk, cat_arr (as_cols dim v) bk, cat_arr (as_cols dim a) (dot1 dim dbk v))
  end.

(** Declared sizes, models.py:436-438, 475-477, 551-552, 583-584, 615-616, 669-670.
    [n] is [N_basis_elt], the declared number of features, and [b] the flag of the basis at
    construction. *)
Definition n_force (c : gle_class) (n : nat) (b : bool) (dim_x : nat) : nat :=
  match c with WithFriction => (2 * n - bint b * dim_x)%N | _ => n end.
Definition n_kernel (c : gle_class) (n : nat) (b : bool) (dim_x dim_obs : nat) : nat :=
  match c with
  | PosGle | WithFriction => (n - bint b * dim_x)%N
  | NoVel | Overdamped => n
  | ConstKernel => dim_obs
  | Hybrid => n.+1
  end.

(** ** FeaturesCombiner, _basis_features.py:231-266 *)
Definition combiner_flag (os : seq obj) : bool := has flag os.
Definition combiner_basis (os : seq obj) (x : point) : res arr :=
  if os is o :: os' then Ok (foldl (fun f b => cat_arr f (fn b x)) (fn o x) os') else Err OutOfBounds.
(** Lines 255-260: [features] is only bound inside the loop, from [grad]. *)
Definition combiner_loop (f : obj -> arr) (grad : arr) (features : option arr) (os : seq obj) : option arr :=
  foldl (fun _ b => Some (cat_arr grad (f b))) features os.
Definition combiner_deriv (os : seq obj) (x : point) : res arr :=
  if os is o :: os' then
    let grad := deriv o x in
    if combiner_loop (fun b => deriv b x) grad None os' is Some f then Ok f else Err UnboundLocalError
  else Err OutOfBounds.

(** ** TensorialBasis2D, _multidim_basis.py:10-96 *)
(** [X[:, slice(i, i+1)]]. *)
Definition coord (i : nat) (x : point) : point := fun j => x (i + j)%N.
Definition tensor_init (b1 b2 : obj) : obj * obj := (set_flag false b1, set_flag false b2).
(** [np.einsum("nk...,nl...->nkl...")] then [reshape(nsamples, -1, ...)]: row-major columns, the
    trailing indices going to one of the factors, or to both for the cross term. *)
Definition outer (t1 t2 : seq nat -> seq nat) (a b : arr) : arr :=
  ((a.1 * b.1)%N, fun idx =>
    a.2 ((head 0 idx %/ b.1)%N :: t1 (behead idx)) * b.2 ((head 0%N idx %% b.1)%N :: t2 (behead idx))).
Definition none (s : seq nat) : seq nat := [::].
Definition fst1 (s : seq nat) : seq nat := take 1 s.
Definition snd1 (s : seq nat) : seq nat := drop 1 s.
Definition tensor_basis (b1 b2 : obj) (x : point) : arr :=
  outer none none (fn b1 (coord 0 x)) (fn b2 (coord 1 x)).
(** [np.concatenate((a, b), axis=p)] of two arrays of extent one along trailing axis [p]
    (counted after the columns). *)
Definition cat_axis (p : nat) (a b : arr) : arr :=
  (a.1, fun idx => let s := behead idx in
    if nth 0%N s p == 0%N then a.2 idx else b.2 (head 0%N idx :: set_nth 0%N s p (nth 0%N s p).-1)).
(** Lines 45-55. *)
Definition tensor_deriv (b1 b2 : obj) (x : point) : res arr :=
  let grad_1 := outer none id (fn b1 (coord 0 x)) (deriv b2 (coord 1 x)) in
  let grad_2 := outer id none (deriv b1 (coord 0 x)) (fn b2 (coord 1 x)) in
  if grad_1.1 == grad_2.1 then Ok (cat_axis 0 grad_2 grad_1) else Err ValueError.
(** Lines 57-66. *)
Definition tensor_hessian (b1 b2 : obj) (x : point) : res arr :=
  let hess_1 := outer none id (fn b1 (coord 0 x)) (hessian b2 (coord 1 x)) in
  let hess_cross := outer fst1 snd1 (deriv b1 (coord 0 x)) (deriv b2 (coord 1 x)) in
  let hess_2 := outer id none (hessian b1 (coord 0 x)) (fn b2 (coord 1 x)) in
  if (hess_2.1 == hess_cross.1) && (hess_cross.1 == hess_1.1) then
    Ok (cat_axis 1 (cat_axis 0 hess_2 hess_cross) (cat_axis 0 hess_cross hess_1))
  else Err ValueError.
(** Lines 71-81: [np.ravel_multi_index], [np.unravel_index] for the shape [(n1, n2)]. *)
Definition comb_indices (n1 n2 i j : nat) : res nat :=
  if (i < n1)%N && (j < n2)%N then Ok (i * n2 + j)%N else Err ValueError.
Definition split_index (n1 n2 k : nat) : res (nat * nat) :=
  if (k < n1 * n2)%N then Ok (k %/ n2, k %% n2)%N else Err ValueError.
(** Lines 27-38: the factors are objects in a store; [fit] records the description of the one
    coordinate it was given.  [b2 = None] makes both names refer to the first object. *)
Definition store (D : Type) := nat -> option D.
Definition write D (s : store D) (l : nat) (d : D) : store D := fun l' => if l' == l then Some d else s l'.
Definition tensor_loc (l1 : nat) (l2 : option nat) : nat * nat := (l1, odflt l1 l2).
Definition tensor_fit D (describe : seq D) (l1 : nat) (l2 : option nat) (s : store D) : res (store D) :=
  if describe is [:: d0; d1] then
    let (p1, p2) := tensor_loc l1 l2 in Ok (write (write s p1 d0) p2 d1)
  else Err ValueError.
