(** * Fitting memory kernels: VolterraBasis/fit_memory.py.

    The least-squares routine ([scipy.optimize.curve_fit]), the Prony fit and the fitted
    functions are parameters: only the dispatch on the type name, the shapes and the
    positions are modelled.  An array of times is flat or a column ([np.squeeze] makes a column of two or more
    times flat); a single time is not treated. *)
From mathcomp Require Import all_ssreflect.
From Coq Require Import String.
From Verif Require Import Base.
Set Implicit Arguments.
Unset Strict Implicit.
Unset Printing Implicit Defensive.
Local Open Scope string_scope.

Section Fit.
(** Values, parameters of the analytic functions (lists of numbers), results of the Prony fit. *)
Variables (R P : Type) (R0 : R).

Record times := Times { t_flat : bool; t_val : seq R }.
Definition squeeze (t : times) : times := Times true (t_val t).

Inductive func := ExpF | ExpNormF | DoubleExpF | SechF | SechOneF | SechTwoF | GaussF.
(** Number of parameters after [t], fit_memory.py:43-68. *)
Definition arity (f : func) : nat :=
  match f with ExpF => 2 | ExpNormF => 1 | DoubleExpF => 3 | SechF => 3 | SechOneF => 2 | SechTwoF => 2 | GaussF => 2 end.

Inductive params := Popt of seq R | PronyP of P.

Variable curve_fit : func -> seq R -> seq R -> nat -> seq R.  (* number of starting values given *)
Variable prony_fit : seq R -> seq R -> res P.
Variable feval : func -> seq R -> R -> R.
Variable prony_eval : P -> seq R -> res (seq R).

(** [type in [...]] *)
Definition isin (t : string) (l : list string) : bool := has (String.eqb t) l.

(** memory_fit, fit_memory.py:71-104 (data with one dimension). *)
Definition memory_fit (t : times) (data : seq R) (type : string) : res (string * params) :=
  let t := squeeze t in
  let! _ := guard (t_flat t) ValueError in
  let fit f n_p0 :=
    if (size data == 0) || (size (t_val t) < 2) then Err OutOfBounds
    else Ok (type, Popt (curve_fit f (t_val t) data n_p0)) in
  if isin type [:: "exp"; "exponential"] then fit ExpF 2
  else if isin type [:: "expnorm"; "exp_norm"] then fit ExpNormF 1
  else if isin type [:: "doubleexpnorm"; "double_exp_norm"] then fit DoubleExpF 3
  else if isin type [:: "sech"] then fit SechF 3
  else if isin type [:: "sech_one"] then fit SechOneF 2
  else if isin type [:: "sech_two"] then fit SechTwoF 2
  else if isin type [:: "gaussian"] then fit GaussF 2
  else if isin type [:: "prony"] then
    if size (t_val t) < 2 then Err OutOfBounds
    else let! p := prony_fit (t_val t) data in Ok (type, PronyP p)
  else Err ValueError.

(** memory_fit_eval, fit_memory.py:107-135; the analytic functions keep the shape of the
    times, the Prony series (fit_prony.py:191-197) is flat. *)
Definition call (f : func) (t : times) (p : params) : res times :=
  if p is Popt l then
    if size l == arity f then Ok (Times (t_flat t) (map (feval f l) (t_val t))) else Err TypeError
  else Err TypeError.

Definition call_prony (t : times) (p : params) : res times :=
  if p is PronyP q then let! v := prony_eval q (t_val t) in Ok (Times true v) else Err TypeError.

Definition memory_fit_eval (t : times) (type : string) (p : params) : res times :=
  if isin type [:: "exp"; "exponential"] then call ExpF t p
  else if isin type [:: "expnorm"; "exp_norm"] then call ExpNormF t p
  else if isin type [:: "doubleexpnorm"; "double_exp_norm"] then call DoubleExpF t p
  else if isin type [:: "sech"] then call SechF t p
  else if isin type [:: "sech_one"] then call SechOneF t p
  else if isin type [:: "sech_two"] then call SechTwoF t p
  else if isin type [:: "gaussian"] then call GaussF t p
  else if isin type [:: "prony"] then call_prony t p
  else Err ValueError.

(** An array of shape (times, dim_basis, dim_x), by components. *)
Record kernel := Kern { k_basis : nat; k_x : nat; k_val : nat -> nat -> seq R }.

(** memory_fit_kernel, fit_memory.py:138-160; [None] is the initial [0]. *)
Definition set2 (T : Type) (a : seq (seq T)) (i j : nat) (x : T) : res (seq (seq T)) :=
  let! r := rd a i in let! r := wr r j x in wr a i r.

Definition memory_fit_kernel (t : times) (K : kernel) (type : string) : res (string * seq (seq (option params))) :=
  let popt := nseq (k_x K) (nseq (k_basis K) None) in
  let! popt := for_ 0 (k_x K) (fun d popt =>
    for_ 0 (k_basis K) (fun k popt =>
      let! f := memory_fit (squeeze t) (k_val K k d) type in
      set2 popt d k (Some f.2)) popt) popt in
  Ok (type, popt).

(** memory_kernel_eval, fit_memory.py:163-188: a flat result fills the component, a column of
    two or more rows cannot be stored in it. *)
Definition memory_kernel_eval (t : times) (type : string) (popt : seq (seq (option params))) : res kernel :=
  let dim_x := size popt in
  let! row0 := rd popt 0 in
  let dim_basis := size row0 in
  let fit := fun _ _ => nseq (size (t_val t)) R0 in
  let! fit := for_ 0 dim_x (fun d fit =>
    for_ 0 dim_basis (fun k fit =>
      let! row := rd popt d in
      let! p := rd row k in
      let! r := (if p is Some p then memory_fit_eval t type p else Err TypeError) in
      if t_flat r || (size (t_val r) <= 1) then
        Ok (fun k' d' => if (k' == k) && (d' == d) then t_val r else fit k' d')
      else Err ValueError) fit) fit in
  Ok (Kern dim_basis dim_x fit).

End Fit.
