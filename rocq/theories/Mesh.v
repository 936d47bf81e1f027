(** * Mesh helpers: VolterraBasis/basis/_mesh_utils.py:9-132.

    Over Coq's real numbers with the infinities and [nan] of IEEE arithmetic, which
    [get_intersect] returns and later rounds compute with; no rounding.  The clustering, convex
    hull and Delaunay triangulation of the libraries are not modelled. *)
From Coq Require Import Reals.
From mathcomp Require Import all_ssreflect.
From Verif Require Import Base.
Set Implicit Arguments.
Unset Strict Implicit.
Unset Printing Implicit Defensive.
Local Open Scope R_scope.

(** ** Grids on a line *)
(** [np.linspace(x_start, x_end, n + 1)], lines 9-18. *)
Definition uniform_line (x_start x_end : R) (n : nat) : seq R :=
  mkseq (fun i => x_start + INR i * ((x_end - x_start) / INR n)) n.+1.
(** [h * np.cumsum(ratio ** np.arange(n))], lines 30-35.  The quotient is one of Python numbers:
    a zero denominator raises. *)
Fixpoint power_sum (ratio : R) (n : nat) : R := if n is m.+1 then power_sum ratio m + ratio ^ m else 0.
Definition non_uniform_line (x_start x_end : R) (n : nat) (ratio : R) : res (seq R) :=
  if Req_EM_T (ratio ^ n - 1) 0 then Err ZeroDivision
  else
    let h := (ratio - 1) / (ratio ^ n - 1) in
    let x := 0 :: mkseq (fun i => h * power_sum ratio i.+1) n in
    Ok (map (fun t => x_start + t * (x_end - x_start)) x).

(** ** Numbers with infinities *)
Inductive ext := Fin of R | PInf | NInf | Nan.
Definition rsign (x : R) : comparison := if Rlt_dec x 0 then Lt else if Rlt_dec 0 x then Gt else Eq.
Definition eneg (x : ext) : ext := match x with Fin r => Fin (- r) | PInf => NInf | NInf => PInf | Nan => Nan end.
Definition eadd (x y : ext) : ext :=
  match x, y with
  | Fin r, Fin s => Fin (r + s)
  | Nan, _ | _, Nan | PInf, NInf | NInf, PInf => Nan
  | PInf, _ | _, PInf => PInf
  | NInf, _ | _, NInf => NInf
  end.
Definition esub (x y : ext) : ext := eadd x (eneg y).
Definition scale_inf (r : R) (x : ext) : ext := match rsign r with Gt => x | Lt => eneg x | Eq => Nan end.
Definition emul (x y : ext) : ext :=
  match x, y with
  | Fin r, Fin s => Fin (r * s)
  | Nan, _ | _, Nan => Nan
  | Fin r, i | i, Fin r => scale_inf r i
  | PInf, i => i
  | NInf, i => eneg i
  end.
Definition ediv (x y : ext) : ext :=
  match x, y with
  | Fin r, Fin s => if Req_EM_T s 0 then scale_inf r PInf else Fin (r / s)
  | Nan, _ | _, Nan => Nan
  | Fin _, _ => Fin 0
  | i, Fin s => match rsign s with Lt => eneg i | _ => i end
  | _, _ => Nan
  end.
Definition elt (x y : ext) : bool :=
  match x, y with
  | Nan, _ | _, Nan => false
  | Fin r, Fin s => if Rlt_dec r s then true else false
  | NInf, NInf => false | NInf, _ => true
  | _, PInf => if x is PInf then false else true
  | _, _ => false
  end.
Definition is_nan (x : ext) : bool := if x is Nan then true else false.
Definition is_zero (x : ext) : bool := if x is Fin r then if Req_EM_T r 0 then true else false else false.

(** ** get_intersect, lines 72-87 *)
Definition vertex := (ext * ext)%type.
Definition triple := (ext * ext * ext)%type.
Definition homogeneous (p : vertex) : triple := (p.1, p.2, Fin 1).
(** [np.cross]. *)
Definition cross (a b : triple) : triple :=
  let '(a0, a1, a2) := a in let '(b0, b1, b2) := b in
  (esub (emul a1 b2) (emul a2 b1), esub (emul a2 b0) (emul a0 b2), esub (emul a0 b1) (emul a1 b0)).
Definition get_intersect (a1 a2 b1 b2 : vertex) : vertex :=
  let l1 := cross (homogeneous a1) (homogeneous a2) in
  let l2 := cross (homogeneous b1) (homogeneous b2) in
  let '(x, y, z) := cross l1 l2 in
  if is_zero z then (PInf, PInf) else (ediv x z, ediv y z).

(** ** remove_one_point, lines 90-109 *)
Definition v0 : vertex := (Fin 0, Fin 0).
(** [np.power(v[1:] - v[:-1], 2).sum(axis=1)]. *)
Definition sq_dist (p q : vertex) : ext :=
  let d0 := esub q.1 p.1 in let d1 := esub q.2 p.2 in eadd (emul d0 d0) (emul d1 d1).
Definition lengths (vs : seq vertex) : seq ext :=
  mkseq (fun i => sq_dist (nth v0 vs i) (nth v0 vs i.+1)) (size vs).-1.
(** [np.argmin]: the first [nan], else the first smallest; refuses an empty array. *)
Definition better (x best : ext) : bool := ~~ is_nan best && (is_nan x || elt x best).
Fixpoint argmin_from (best : ext) (ibest i : nat) (s : seq ext) : nat :=
  if s is x :: s' then if better x best then argmin_from x i i.+1 s' else argmin_from best ibest i.+1 s'
  else ibest.
Definition argmin (s : seq ext) : res nat := if s is x :: s' then Ok (argmin_from x 0 1 s') else Err ValueError.
Definition esum (s : seq ext) : ext := foldl eadd (Fin 0) s.
(** [np.delete]. *)
Definition delete (i : nat) (vs : seq vertex) : seq vertex := take i vs ++ drop i.+1 vs.
Definition remove_one_point (limit : R) (vs : seq vertex) : res (seq vertex * bool) :=
  let m := size vs in
  let len := lengths vs in
  let! i := argmin len in
  if elt (ediv (nth Nan len i) (esum len)) (Fin limit) then
    let pre_a := nth v0 vs ((i + m.-1) %% m) in       (* (i - 1) % m *)
    let pre_b := nth v0 vs (i %% m) in
    let post_a := nth v0 vs (i.+1 %% m) in
    let post_b := nth v0 vs (i.+2 %% m) in
    Ok (delete (i.+1 %% m) (set_nth v0 vs i (get_intersect pre_a pre_b post_a post_b)), true)
  else Ok (vs, false).

(** The loop of centroid_driven_mesh, lines 125-127, with a bound on the rounds: [None] is
    running beyond it. *)
Fixpoint simplify (fuel : nat) (limit : R) (vs : seq vertex) : option (res (seq vertex)) :=
  if fuel is f.+1 then
    match remove_one_point limit vs with
    | Err e => Some (Err e)
    | Ok (ws, true) => simplify f limit ws
    | Ok (ws, false) => Some (Ok ws)
    end
  else None.
(** [stop = simplify_hull > 0.0]. *)
Definition simplify_hull (fuel : nat) (limit : R) (vs : seq vertex) : option (res (seq vertex)) :=
  if Rlt_dec 0 limit then simplify fuel limit vs else Some (Ok vs).
