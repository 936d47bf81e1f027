(** * Smooth indicator functions: VolterraBasis/basis/_local_features.py:95-245.

    Over Coq's real numbers, for one sample (the class accepts one-dimensional data only).
    A boundary is a pair of numbers in any order.  [nan] is [Err ZeroDivision]. *)
From Coq Require Import Reals.
From mathcomp Require Import all_ssreflect.
From Verif Require Import Base.
Set Implicit Arguments.
Unset Strict Implicit.
Unset Printing Implicit Defensive.
Local Open Scope R_scope.

(** A boundary function: order of the derivative, then the argument. *)
Definition boundary_fun := nat -> R -> R.

(** Lines 95-106. Orders above two return [None]; they are refused in [ind_deriv]. *)
Definition quartic : boundary_fun := fun der u =>
  let u2 := 1 - u ^ 2 in
  match der with 0%N => u2 ^ 2 | 1%N => -4 * u * u2 | _ => 12 * u ^ 2 - 4 end.
(** Lines 109-120. *)
Definition triweight : boundary_fun := fun der u =>
  let u2 := 1 - u ^ 2 in
  match der with 0%N => u2 ^ 3 | 1%N => -6 * u * u2 ^ 2 | _ => -6 * u2 ^ 2 + 24 * u ^ 2 * u2 end.
(** Lines 123-134. *)
Definition tricube : boundary_fun := fun der u =>
  let u3 := 1 - u ^ 3 in
  match der with 0%N => u3 ^ 3 | 1%N => -9 * u ^ 2 * u3 ^ 2 | _ => 54 * u ^ 4 * u3 - 18 * u * u3 ^ 2 end.

(** Lines 161-170: the name of the boundary function. *)
Inductive boundary_type := Tricube | Triweight | Quartic | OtherName.
Definition boundary_of (t : boundary_type) : res boundary_fun :=
  match t with
  | Tricube => Ok tricube | Triweight => Ok triweight | Quartic => Ok quartic
  | OtherName => Err ValueError
  end.

Definition rltb (x y : R) : bool := if Rlt_dec x y then true else false.

(** [u = (X - a) / (b - a)] as the code uses it: below 0, above 1, or its value.  When [a = b]
    it is an infinity of the sign of [X - a], or [nan]. *)
Inductive loc := Lt0 | Gt1 | In01 of R.
Definition locate (a b x : R) : res loc :=
  if Req_EM_T a b then
    if rltb x a then Ok Lt0 else if rltb a x then Ok Gt1 else Err ZeroDivision
  else
    let u := (x - a) / (b - a) in
    Ok (if rltb u 0 then Lt0 else if rltb 1 u then Gt1 else In01 u).

Definition lower (p : R * R) : R := Rmin p.1 p.2.
Definition upper (p : R * R) : R := Rmax p.1 p.2.
(** [np.where(u < 0, low, np.where(u > 1, 0, f(u)))]. *)
Definition where3 (l : loc) (low : R) (f : R -> R) : R :=
  match l with Lt0 => low | Gt1 => 0 | In01 u => f u end.

(** The features of one sample and the value carried to the next state. *)
Definition ind_state := (seq R * R)%type.
(** Number of columns, line 178. *)
Definition n_features (n_states : nat) (periodic : bool) : nat := (n_states + ~~ periodic)%N.

(** basis, lines 182-211. *)
Definition ind_basis (B : boundary_fun) (bs : seq (R * R)) (periodic : bool) (x : R) : res (seq R) :=
  if bs is p0 :: bs' then
    let! l := locate (lower p0) (upper p0) x in
    let occ := where3 l 1 (B 0%N) in
    let features := set_nth 0 (nseq (n_features (size bs) periodic) 0) 0 occ in
    let! st := for_ 1 (size bs) (fun n (st : ind_state) =>
      let p := nth (0, 0) bs n in
      let! l := locate (lower p) (upper p) x in
      let f := set_nth 0 st.1 n (where3 l st.2 (B 0%N)) in
      Ok (f, 1 - where3 l 1 (B 0%N))) (features, 1 - occ) in
    let (features, occ_next) := st in
    Ok (if periodic then set_nth 0 features 0 (if rltb 0 occ_next then occ_next else nth 0 features 0)
        else set_nth 0 features (size bs) occ_next)
  else Err OutOfBounds.

(** deriv, lines 213-240, [order] being [deriv_order]. *)
Definition ind_deriv (B : boundary_fun) (bs : seq (R * R)) (periodic : bool) (order : nat) (x : R) : res (seq R) :=
  if (2 < order)%N then Err TypeError
  else if bs is p0 :: bs' then
    let! l := locate (lower p0) (upper p0) x in
    let der := where3 l 0 (fun u => B order u / (upper p0 - lower p0) ^ order) in
    let features := set_nth 0 (nseq (n_features (size bs) periodic) 0) 0 der in
    let! st := for_ 1 (size bs) (fun n (st : ind_state) =>
      let p := nth (0, 0) bs n in
      let! l := locate (lower p) (upper p) x in
      let der u := B order u / (upper p - lower p) ^ order in
      let f := set_nth 0 st.1 n (where3 l st.2 der) in
      Ok (f, - where3 l 0 der)) (features, - der) in
    let (features, der_next) := st in
    Ok (if periodic then set_nth 0 features 0 (if Req_EM_T der_next 0 then nth 0 features 0 else der_next)
        else set_nth 0 features (size bs) der_next)
  else Err OutOfBounds.
Definition ind_hessian (B : boundary_fun) bs periodic x := ind_deriv B bs periodic 2 x.
