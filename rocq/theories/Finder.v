(** * Finding the element of a point: _fem_features.py:13-68.

    Over Coq's real numbers.  The mesh, the nearest neighbour search and the affine maps of the
    elements come from libraries: here a mesh is its vertices and elements, the search is a
    parameter described in FinderProofs.v and the maps are those of straight triangles. *)
From Coq Require Import Reals.
From mathcomp Require Import all_ssreflect.
From Verif Require Import Base.
Set Implicit Arguments.
Unset Strict Implicit.
Unset Printing Implicit Defensive.
Local Open Scope R_scope.

Definition Rleb (x y : R) : bool := if Rle_dec x y then true else false.
Definition Reqb (x y : R) : bool := if Req_EM_T x y then true else false.

(** ** One dimension, lines 22-27 and 39-45 *)
(** [mesh.p[0]], [mesh.t[0]] and [mesh.t[1]]. *)
Record mesh1 := Mesh1 { pts : seq R; left_of : seq nat; right_of : seq nat }.
Definition max_point (m : mesh1) : R := foldr Rmax (head 0 (pts m)) (pts m).
Definition bins (m : mesh1) : seq R := sort Rleb (pts m).
(** [np.digitize] for increasing bins: how many are below or at the value. *)
Definition digitize (x : R) (b : seq R) : nat := count (Rleb^~ x) b.
(** [np.argmax(digitize - 1 == bins_idx)]: the first match, the first element if there is none. *)
Definition lookup (idx : seq nat) (d : nat) : nat :=
  if d is i.+1 then if i \in idx then index i idx else 0%N else 0%N.
(** The samples at the last point are moved inside, in place: the modified array is returned with
    the elements.  [eps] is 1e-10. *)
Definition shifted (eps : R) (m : mesh1) (X : seq R) : seq R :=
  map (fun x => if Reqb x (max_point m) then x - eps else x) X.
Definition find_element_1D (eps : R) (m : mesh1) (X : seq R) : res (seq nat * seq R) :=
  if pts m is [::] then Err ValueError                 (* np.max of an empty array *)
  else
    let X' := shifted eps m X in
    if left_of m is [::] then Err ValueError           (* np.argmax along an empty axis *)
    else Ok (map (fun x => lookup (left_of m) (digitize x (bins m))) X', X').

(** ** More dimensions, lines 31-38 and 50-68 *)
Definition point := (R * R)%type.
Definition triangle := (point * point * point)%type.
(** [mapping.invF]: coordinates in the reference triangle. *)
Definition jacobian (t : triangle) : R :=
  let '(a, b, c) := t in (b.1 - a.1) * (c.2 - a.2) - (c.1 - a.1) * (b.2 - a.2).
Definition inv_map (t : triangle) (x : point) : res point :=
  let '(a, b, c) := t in
  let J := jacobian t in
  if Req_EM_T J 0 then Err ZeroDivision
  else Ok (((c.2 - a.2) * (x.1 - a.1) - (c.1 - a.1) * (x.2 - a.2)) / J,
           ((b.1 - a.1) * (x.2 - a.2) - (b.2 - a.2) * (x.1 - a.1)) / J).
(** inside_2D; [mach] is the machine epsilon. *)
Definition inside_2D (mach : R) (X : point) : bool :=
  [&& Rleb (- mach) X.1, Rleb (- mach) X.2 & Rleb (- mach) (1 - X.1 - X.2)].
(** One point: [cand] are the five answers of the tree, of which those beyond the number of
    elements stand for missing neighbours. *)
Definition find_one (mach : R) (ts : seq triangle) (cand : seq nat) (x : point) : res nat :=
  let! loc := mapM (fun e => let! t := rd ts e in inv_map t x) cand in
  let inside := map (inside_2D mach) loc in
  let i := if true \in inside then index true inside else 0%N in    (* np.argmax *)
  rd cand i.
Definition find_element_2D (mach : R) (ts : seq triangle) (query : point -> seq nat) (X : seq point) : res (seq nat) :=
  mapM (fun x => find_one mach ts (query x) x) X.
(** In three dimensions [inside_3D] (line 64) is defined without [self], so that the first point
    raises a TypeError: not modelled further. *)
