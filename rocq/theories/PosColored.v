(** * Position-dependent coloured noise: VolterraBasis/gle_integrate.py:121-179.

    Over Coq's real numbers as in /Colored.v/.  The kernel is an array of shape (length, basis,
    dim).  [kernel_ft] is allocated as an array of reals: storing complex values into it keeps
    their real parts (numpy only warns), while an in-place multiplication of a real array by
    complex numbers is refused ([TypeError]).  The type of the elements of [E_noise], which
    decides on the latter, is a field of the argument.  The draws of a call to [generate] are a
    parameter, one array per component; [nan] is [Err ZeroDivision]. *)
From Coq Require Import Reals.
From Coquelicot Require Import Complex.
From mathcomp Require Import all_ssreflect.
From Verif Require Import Base Colored.
Set Implicit Arguments.
Unset Strict Implicit.
Unset Printing Implicit Defensive.
Local Open Scope R_scope.

Record karr := KArr { k_len : nat; k_basis : nat; k_dim : nat; k_at : nat -> nat -> nat -> R }.

(** [kernel[:, k, d]] *)
Definition kcol (K : karr) (k d : nat) : seq R := mkseq (fun i => k_at K i k d) (k_len K).

Record posgen := PosGen { pg_dt : R; pg_tsym : seq R; pg_basis : nat; pg_dim : nat;
  pg_w : option (seq R); pg_ft : nat -> nat -> seq R }.

(** Lines 156-159, one pass of the loops: the column stored and the frequencies. *)
Definition pos_column (K : karr) (t_sym : seq R) (p : nat * nat) : res (seq R * seq R) :=
  let! gw := ft (map RtoC (sym_kernel (kcol K p.1 p.2))) t_sym in
  let re := map Re gw.1 in
  if size re == size t_sym then Ok (re, gw.2)
  else if size re == 1%N then Ok (nseq (size t_sym) (nth 0 re 0), gw.2)
  else Err ValueError.

(** __init__, lines 128-159; [self.w] is what the last pass stored. *)
Definition new_posgen (K : karr) (t : seq R) : res posgen :=
  let! t1 := rd t 1 in
  let! t0 := rd t 0 in
  let t_sym := sym_times t in
  let! cols := mapM (pos_column K t_sym) (allpairs pair (iota 0 (k_basis K)) (iota 0 (k_dim K))) in
  Ok (PosGen (t1 - t0) t_sym (k_basis K) (k_dim K)
        (if cols is c :: cs then Some (last c cs).2 else None)
        (fun k d => (nth ([::], [::]) cols (k * k_dim K + d)).1)).

Record earr := EArr { e_rows : nat; e_cols : nat; e_complex : bool; e_at : nat -> nat -> C }.

(** [np.einsum("kl,ikd->idl", E_noise, kernel_ft)], line 174; extents of one are repeated. *)
Definition mixed_ft (g : posgen) (E : earr) (i d l : nat) : C :=
  csum (if e_rows E == 1%N then pg_basis g else e_rows E) (fun k =>
    Cmult (e_at E (if e_rows E == 1%N then 0%N else k) l)
          (RtoC (nth 0 (pg_ft g (if pg_basis g == 1%N then 0%N else k) d) i))).

(** Lines 175-178 for component [d]. *)
Definition pos_component (g : posgen) (E : earr) (ind : nat) (white : seq (seq R)) (d : nat) : res (seq R) :=
  let N := size (pg_tsym g) in
  let! _ := guard (d < e_cols E)%N OutOfBounds in
  if pg_w g is Some w then
    let! _ := guard (e_complex E) TypeError in             (* f *= np.exp(...) in ift *)
    let! s := ift (mkseq (fun i => csqrt (mixed_ft g E i d d)) N) w (pg_tsym g) in
    let! c := convolve_same (nth [::] white d) (map Re s) in
    if size c == maxn ind N then Ok c else Err ValueError
  else Err AttributeError.

(** generate, lines 168-179: the value at [ind] for every component. *)
Definition pos_generate (g : posgen) (E : earr) (ind : nat) (white : seq (seq R)) : res (seq R) :=
  let! _ := guard [|| e_rows E == pg_basis g, e_rows E == 1%N | pg_basis g == 1%N] ValueError in
  let! cs := mapM (pos_component g E ind white) (iota 0 (pg_dim g)) in
  let! _ := guard (ind < maxn ind (size (pg_tsym g)))%N OutOfBounds in
  if Rle_dec 0 (pg_dt g) then Ok [seq nth 0 c ind * sqrt (pg_dt g) | c <- cs] else Err ZeroDivision.
