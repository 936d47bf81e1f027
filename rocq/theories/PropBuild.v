(** * C70: building an integrator from a model. *)
From Coq Require Import Reals Lra.
From mathcomp Require Import all_ssreflect zify.
From Verif Require Import Base Tactics Colored ColoredProofs ColoredProofs2 ColoredProofs3 ColoredProofs4 PropColored Build BuildProofs.
Set Implicit Arguments.
Unset Strict Implicit.
Unset Printing Implicit Defensive.
Local Open Scope R_scope.

(** From a model with force, kernel and noise coefficients of matching shapes, whose kernel
    times are 0, h, 2h, ..., an integrator is built that holds the force, all samples of the
    kernel and the time step of the model, and one noise filter per component.  If the
    cosine spectrum of the noise kernel of a component is nowhere negative, the circular
    square of its filter is the noise kernel. *)
Theorem C70_build_partial g coeffs trunc kw f K c h :
  buildable g coeffs trunc f K c -> on_grid g (len K) h ->
  exists it, new_integrator (Some g) coeffs trunc kw = Ok it /\
  [/\ [/\ i_force it = f, i_kernel it = K, i_dt it = g_dt g & i_trunc it = len K],
      [/\ i_n_kernel it = g_n_kernel g, i_dim it = g_dim_obs g, i_rank it = g_rank g & i_P it = g_P g],
      i_noise_dt it = h, size (i_filters it) = cols3 K
    & forall d, (d < cols3 K)%N ->
        let k := mkseq (noise_kernel c K d) (len K) in let s := nth [::] (i_filters it) d in
        let n := (2 * (len K).-1).+1 in
        size s = n /\
        ((forall j, (j < n)%N -> 0 <= spectrum k j) ->
         forall m, (m < n)%N ->
           h * rsum n (fun a => nth 0 s a * nth 0 s ((m + (len K).-1 + n - a) %% n))
           = noise_kernel c K d ((m - (len K).-1) + ((len K).-1 - m)))].
Proof.
move=> B G; have [it [E [H1 H2 Hn sF HF]]] := build_ok kw B G; exists it; split=> //; split=> // d rd k s n.
have [k' [sk Hk Ek]] := HF d rd.
have kk : k' = k by apply: (@eq_from_nth _ 0); rewrite ?size_mkseq // sk => i ri; rewrite Hk // nth_mkseq.
have [n1 st h0 Ht] := G.
have [||||s' Es [ss _ _ Hs]] := @C46_filter_partial k (g_times g) h; rewrite ?size_mkseq //.
  by move=> i; rewrite st; exact: Ht.
move: Ek; rewrite kk Es => -[es]; move: ss Hs; rewrite es /k size_mkseq => ss Hs.
split=> // pos m mn; rewrite (Hs pos m mn) nth_mkseq //; move: mn n1; rewrite /n; lia.
Qed.

(** Any integrator built from a model needs a kernel as long as its times; the number of
    samples kept is that number, whatever [trunc_kernel]; the coefficients, given or of the
    model, must exist and have at least one column per component. *)
Theorem C70_needs g coeffs trunc kw it : new_integrator (Some g) coeffs trunc kw = Ok it ->
  exists f K c, [/\ g_force g = Some f, g_kernel g = Some K,
    (if coeffs is Some c0 then Some c0 else g_inv_mass g) = Some c,
    [|| rows c == rows3 K, rows c == 1%N | rows3 K == 1%N]
    & (0 < cols3 K)%N -> (cols3 K <= cols c)%N /\ minn (odflt (g_trunc_ind g) trunc) (len K) = size (g_times g)].
Proof. exact: build_needs. Qed.

(** [trunc_kernel] shorter than the kernel never works: the times are not cut. *)
Theorem C70_truncation_refuted :
  (forall g coeffs n kw K, g_kernel g = Some K -> (0 < cols3 K)%N -> size (g_times g) = len K -> (n < len K)%N ->
     forall it, new_integrator (Some g) coeffs (Some n) kw <> Ok it)
  /\ exists g K n, [/\ g_kernel g = Some K, (0 < cols3 K)%N, size (g_times g) = len K, (n < len K)%N
       & exists it, new_integrator (Some g) None None no_kwargs = Ok it].
Proof.
split=> [g coeffs n kw K EK c0 st lt it E|].
  have [f [K' [c [_ EK' _ _ H]]]] := build_needs E; move: EK' H; rewrite EK => -[<-] /(_ c0)[_] /=.
  by rewrite st; lia.
exists (fitted (Some (one2 1)) 1), kern3, 1%N; split=> //.
by have [it [E _]] := fitted_built 1; exists it.
Qed.

(** The documented use without a model never works: the kernel times are read from the
    model that is not there. *)
Theorem C70_no_model_refuted :
  (forall coeffs trunc kw it, new_integrator None coeffs trunc kw <> Ok it)
  /\ forall f k v dt, (0 < size k)%N ->
     new_integrator None None None (Kwargs true (Some f) (Some (k, v)) (Some dt)) = Err AttributeError.
Proof. by split=> [coeffs trunc kw it|f k v dt]; [exact: build_without_model | exact: documented_kwargs]. Qed.

(** A fitted model without inverse mass coefficients, such as a loaded one, is refused unless
    the coefficients are given. *)
Theorem C70_default_coeffs_refuted : exists g,
  [/\ new_integrator (Some g) None None no_kwargs = Err ValueError,
      g_force g <> None, g_kernel g <> None
    & exists it, new_integrator (Some g) (Some (one2 1)) None no_kwargs = Ok it].
Proof.
exists (fitted None 1); split=> //.
have B : buildable (fitted None 1) (Some (one2 1)) None (one2 5) kern3 (one2 1) by split.
by have [it [E _]] := build_ok no_kwargs B (fitted_grid _ _); exists it.
Qed.

(** A kernel known at every second time step, as left by the midpoint methods, is accepted:
    the noise filter has the spacing of the kernel, the integrator the step of the data. *)
Theorem C70_midpoint_refuted : exists g it, new_integrator (Some g) None None no_kwargs = Ok it /\
  [/\ i_noise_dt it = 2 * i_dt it, 0 < i_dt it & i_trunc it = len (i_kernel it)].
Proof.
have B := fitted_buildable (1 / 2).
have [it [E [[_ EK Ed Et] _ En _ _]]] := build_ok no_kwargs B (fitted_grid _ _).
by exists (fitted (Some (one2 1)) (1 / 2)), it; split=> //; rewrite Ed En EK Et /=; split=> //; lra.
Qed.

(** A kernel 11 7 with coefficient 1 gives the filter 1 3 1. *)
Example C70_example : exists it, new_integrator (Some (fitted (Some (one2 1)) 1)) None None no_kwargs = Ok it /\
  [/\ i_filters it = [:: [:: 1; 3; 1]], i_dt it = 1, i_noise_dt it = 1
    & forall j, (j < 3)%N -> 0 <= spectrum (mkseq (noise_kernel (one2 1) kern3 0) 2) j].
Proof.
have [it [E [F D N]]] := fitted_built 1; exists it; split=> //; split=> // j j3.
have -> : mkseq (noise_kernel (one2 1) kern3 0) 2 = kern.
  by rewrite /mkseq /= /noise_kernel /= /rsum /=; congr [:: _; _]; ring.
by rewrite kern_spec //; case: eqP => _; lra.
Qed.

Print Assumptions C70_build_partial.
Print Assumptions C70_needs.
Print Assumptions C70_truncation_refuted.
Print Assumptions C70_no_model_refuted.
Print Assumptions C70_default_coeffs_refuted.
Print Assumptions C70_midpoint_refuted.
