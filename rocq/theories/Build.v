(** * Building an integrator: gle_integrate.py:28-55 (noise generator) and 187-245.

    Arrays over Coq's real numbers with their shapes.  [basis] is only copied and is left
    out; [trunc_kernel] is a natural number.  [kwargs] are the arguments used when no model is
    given. *)
From Coq Require Import Reals.
From mathcomp Require Import all_ssreflect.
From Verif Require Import Base Colored.
Set Implicit Arguments.
Unset Strict Implicit.
Unset Printing Implicit Defensive.
Local Open Scope R_scope.

Record arr2 := Arr2 { rows : nat; cols : nat; at2 : nat -> nat -> R }.
(** Time, row, column. *)
Record arr3 := Arr3 { len : nat; rows3 : nat; cols3 : nat; at3 : nat -> nat -> nat -> R }.

Record gle_model := GleModel {
  g_force : option arr2; g_kernel : option arr3; g_times : seq R; g_inv_mass : option arr2;
  g_dt : R; g_trunc_ind : nat; g_n_kernel : nat; g_dim_obs : nat; g_rank : bool; g_P : option arr2 }.

(** Shape of the kernel among the keyword arguments, with its values as if three axes. *)
Record kwargs := Kwargs {
  kw_basis : bool; kw_force : option arr2; kw_kernel : option (seq nat * (nat -> nat -> nat -> R)); kw_dt : option R }.

Record integrator := Integ {
  i_force : arr2; i_kernel : arr3; i_dt : R; i_n_kernel : nat; i_dim : nat; i_rank : bool; i_P : option arr2;
  i_trunc : nat; i_noise_dt : R; i_filters : seq (seq R) }.

(** [a[:n]] on the first axis. *)
Definition take3 (n : nat) (a : arr3) : arr3 := Arr3 (minn n (len a)) (rows3 a) (cols3 a) (at3 a).

(** [np.einsum("kl,ikd->ild", c, a)]; an extent of one is repeated, [None] has no axes. *)
Definition stretch (n k : nat) : nat := if n == 1%N then 0%N else k.
Definition einsum (c : option arr2) (a : arr3) : res arr3 :=
  if c is Some c then
    if [|| rows c == rows3 a, rows c == 1%N | rows3 a == 1%N] then
      Ok (Arr3 (len a) (cols c) (cols3 a) (fun i l d =>
        rsum (maxn (rows c) (rows3 a)) (fun k => at2 c (stretch (rows c) k) l * at3 a i (stretch (rows3 a) k) d)))
    else Err ValueError
  else Err ValueError.

(** ColoredNoiseGenerator.__init__, lines 38-55: time step and diagonal filters. *)
Definition diagonal (a : arr3) (d : nat) : seq R := mkseq (fun i => at3 a i d d) (len a).
Definition noise_generator (kernel : arr3) (t : seq R) : res (R * seq (seq R)) :=
  let! t1 := rd t 1 in
  let! t0 := rd t 0 in
  let! fs := mapM (fun d =>
    let! _ := guard (d < rows3 kernel)%N OutOfBounds in
    colored_filter (diagonal kernel d) t) (iota 0 (cols3 kernel)) in
  Ok (t1 - t0, fs).

(** Lines 194-205 and 220-245. *)
Definition of_model (g : gle_model) (coeffs : option arr2) (trunc_kernel : option nat) : res integrator :=
  let trunc := if trunc_kernel is Some n then n else g_trunc_ind g in
  let! force := (if g_force g is Some f then Ok f else Err AttributeError) in
  let! kernel := (if g_kernel g is Some k then Ok k else Err AttributeError) in
  let kernel := take3 trunc kernel in
  let coeffs := if coeffs is Some c then Some c else g_inv_mass g in
  let! kernel_noise := einsum coeffs kernel in
  let! ng := noise_generator kernel_noise (g_times g) in
  Ok (Integ force kernel (g_dt g) (g_n_kernel g) (g_dim_obs g) (g_rank g) (g_P g) (len kernel) ng.1 ng.2).

(** Lines 206-226; line 226 reads the kernel of the model that was not given. *)
Definition of_kwargs (kw : kwargs) (coeffs : option arr2) : res integrator :=
  let! _ := guard (kw_basis kw) KeyError in
  let! force := (if kw_force kw is Some f then Ok f else Err KeyError) in
  let! kernel := (if kw_kernel kw is Some k then Ok k else Err KeyError) in
  let! dt := (if kw_dt kw is Some dt then Ok dt else Err KeyError) in
  let! _ := guard (0 < size kernel.1)%N OutOfBounds in
  let! _ := (if coeffs is Some c then
               if kernel.1 is [:: n; k; d] then let! e := einsum (Some c) (Arr3 n k d kernel.2) in Ok tt
               else Err ValueError
             else Ok tt) in
  Err AttributeError.

Definition new_integrator (g : option gle_model) (coeffs : option arr2) (trunc_kernel : option nat) (kw : kwargs)
    : res integrator :=
  if g is Some g then of_model g coeffs trunc_kernel else of_kwargs kw coeffs.
