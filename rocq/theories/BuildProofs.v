(** * Building an integrator: proofs. *)
From Coq Require Import Reals Lra.
From Coquelicot Require Import Complex.
From mathcomp Require Import all_ssreflect zify.
From Verif Require Import Base Tactics Colored ColoredProofs ColoredProofs2 ColoredProofs3 ColoredProofs4 PropColored Build.
Set Implicit Arguments.
Unset Strict Implicit.
Unset Printing Implicit Defensive.
Local Open Scope R_scope.

(** Noise kernel of component [d]: coefficients times kernel. *)
Definition noise_kernel (c : arr2) (K : arr3) (d i : nat) : R :=
  rsum (rows3 K) (fun k => at2 c k d * at3 K i k d).

(** The stored data allow an integrator whose kernel has all its samples. *)
Record buildable (g : gle_model) (coeffs : option arr2) (trunc : option nat) (f : arr2) (K : arr3) (c : arr2) : Prop := Buildable {
  b_force : g_force g = Some f;
  b_kernel : g_kernel g = Some K;
  b_coeffs : (if coeffs is Some c0 then Some c0 else g_inv_mass g) = Some c;
  b_rows : rows c = rows3 K;
  b_cols : (cols3 K <= cols c)%N;
  b_trunc : (len K <= odflt (g_trunc_ind g) trunc)%N }.

Definition on_grid (g : gle_model) (n : nat) (h : R) : Prop :=
  [/\ (1 < n)%N, size (g_times g) = n, 0 < h & forall i, (i < n)%N -> nth 0 (g_times g) i = INR i * h].

Lemma size_mirror (s : seq R) : size (mirror s) = (size s).-1.
Proof. by rewrite /mirror size_rev size_drop subn1. Qed.

Lemma filter_sizes (k t h : seq R) : colored_filter k t = Ok h -> (1 < size t)%N -> size k = size t.
Proof.
move=> E st.
have sk : size (sym_kernel k) = ((size k).-1 + size k)%N by rewrite size_cat size_mirror.
have sts : size (sym_times t) = ((size t).-1 + size t)%N by rewrite size_cat size_map size_mirror.
move: E; rewrite /colored_filter.
case Eg: (ft _ _) => [[g w]|e] //=.
move: Eg; rewrite /ft size_map sk; case: eqP => // z.
case: (rd _ 1) => [t1|] //=; case: (rd _ 0) => [t0|] //=; case: Req_EM_T => // _ [Eg Ew].
have sg : size g = ((size k).-1 + size k)%N.
  by rewrite -Eg size_map size_zip size_map /fft /fftfreq !size_mkseq size_map sk minnn.
have sw : size w = ((size k).-1 + size k)%N by rewrite -Ew size_map /fftfreq size_mkseq.
rewrite /ift; case: (rd (sym_times t) 0) => [t0'|] //=; rewrite size_map sg sw eqxx /=.
rewrite !size_map size_zip size_map sg sw minnn; case: eqP => //= _.
case: (rd w 1) (@rd_ok _ 0 w 1) => [w1|] //= H; case: (rd w 0) => [w0|] //=.
rewrite !size_map size_iota ?size_map ?size_zip ?size_map ?sg ?sw ?minnn sts.
have w1s : (1 < size w)%N by have [] := H w1 erefl.
case: eqP => [e _|_]; first by lia.
by case: eqP => // e; lia.
Qed.

Lemma mapM_nth A B (y0 : B) (x0 : A) (f : A -> res B) s l : mapM f s = Ok l <->
  size l = size s /\ forall i, (i < size s)%N -> f (nth x0 s i) = Ok (nth y0 l i).
Proof.
elim: s l => [|x s IH] l /=; first by split=> [[<-]|[/size0nil -> _]].
split.
  case Ex: (f x) => [y|e] //=; case Es: (mapM f s) => [ys|e] //= [<-].
  have [sz H] := (IH ys).1 Es; split=> /= [|[|i] ri]; rewrite ?sz //=; exact: H.
case: l => [|y l] [//= [sz] H]; rewrite (H 0%N erefl) /=.
have -> : mapM f s = Ok l; last by [].
by apply/IH; split=> // i ri; exact: (H i.+1).
Qed.

Lemma size_diagonal a d : size (diagonal a d) = len a.
Proof. by rewrite size_mkseq. Qed.

Lemma bindOk A C (a : A) (k : A -> res C) : bind (Ok a) k = k a. Proof. by []. Qed.

(** ** Success *)
Section Success.
Variables (g : gle_model) (coeffs : option arr2) (trunc : option nat) (kw : kwargs).
Variables (f : arr2) (K : arr3) (c : arr2) (h : R).
Hypotheses (B : buildable g coeffs trunc f K c) (G : on_grid g (len K) h).

Lemma trunc_id : take3 (odflt (g_trunc_ind g) trunc) K = K.
Proof. by have := b_trunc B; case: K => n r d v /= le; rewrite /take3 /= (minn_idPr le). Qed.

Lemma einsumE : exists2 v, einsum (Some c) K = Ok (Arr3 (len K) (cols c) (cols3 K) v)
  & forall i l d, v i l d = rsum (rows3 K) (fun k => at2 c k l * at3 K i k d).
Proof.
rewrite /einsum (b_rows B) eqxx /= maxnn; eexists; first reflexivity.
move=> i l d /=; rewrite /stretch; case: eqP => [->|_] //=.
Qed.

Lemma build_ok : exists it, new_integrator (Some g) coeffs trunc kw = Ok it /\
  [/\ [/\ i_force it = f, i_kernel it = K, i_dt it = g_dt g & i_trunc it = len K],
      [/\ i_n_kernel it = g_n_kernel g, i_dim it = g_dim_obs g, i_rank it = g_rank g & i_P it = g_P g],
      i_noise_dt it = h, size (i_filters it) = cols3 K
    & forall d, (d < cols3 K)%N ->
        exists k, [/\ size k = len K, forall i, (i < len K)%N -> nth 0 k i = noise_kernel c K d i
          & colored_filter k (g_times g) = Ok (nth [::] (i_filters it) d)]].
Proof.
have [n1 st h0 Ht] := G.
have [v Ev Hv] := einsumE.
pose kn d := mkseq (noise_kernel c K d) (len K).
have flt d : exists fd, colored_filter (kn d) (g_times g) = Ok fd.
  have [||||hd Eh _] := @C46_filter_partial (kn d) (g_times g) h; rewrite ?size_mkseq //.
    by move=> i; rewrite st; exact: Ht.
  by exists hd.
have dg d : diagonal (Arr3 (len K) (cols c) (cols3 K) v) d = kn d.
  by apply: eq_mkseq => i /=; rewrite Hv.
pose F d := colored_filter (kn d) (g_times g).
pose l := mkseq (fun d => if F d is Ok x then x else [::]) (cols3 K).
have Hl d : (d < cols3 K)%N -> F d = Ok (nth [::] l d).
  by move=> rd; rewrite nth_mkseq //; have [fd] := flt d; rewrite -/(F d) => ->.
have Em : noise_generator (Arr3 (len K) (cols c) (cols3 K) v) (g_times g) = Ok (h, l).
  rewrite /noise_generator !(rdE 0) ?st //=; last by lia.
  have -> : mapM (fun d => let! _ := guard (d < cols c)%N OutOfBounds in
     colored_filter (diagonal (Arr3 (len K) (cols c) (cols3 K) v) d) (g_times g)) (iota 0 (cols3 K)) = Ok l.
    apply/(mapM_nth [::] 0%N); rewrite size_iota size_mkseq; split=> // d rd.
    by rewrite nth_iota // add0n (leq_trans rd (b_cols B)) /= dg; exact: Hl.
  by rewrite /= !Ht ?st //=; [congr (Ok (_, _)); ring|lia].
exists (Integ f K (g_dt g) (g_n_kernel g) (g_dim_obs g) (g_rank g) (g_P g) (len K) h l); split.
  rewrite /new_integrator /of_model (b_force B) (b_kernel B) !bindOk.
  have -> : take3 (match trunc with Some n => n | None => g_trunc_ind g end) K = K.
    by have := trunc_id; case: (trunc).
  by rewrite (b_coeffs B) Ev /= Em.
split=> //=; first by rewrite size_mkseq.
move=> d rd; exists (kn d); split=> //; first by rewrite size_mkseq.
  by move=> i ri; rewrite nth_mkseq.
exact: Hl.
Qed.
End Success.

(** ** Failures *)
Lemma build_needs g coeffs trunc kw it : new_integrator (Some g) coeffs trunc kw = Ok it ->
  exists f K c, [/\ g_force g = Some f, g_kernel g = Some K,
    (if coeffs is Some c0 then Some c0 else g_inv_mass g) = Some c,
    [|| rows c == rows3 K, rows c == 1%N | rows3 K == 1%N]
    & (0 < cols3 K)%N -> (cols3 K <= cols c)%N /\ minn (odflt (g_trunc_ind g) trunc) (len K) = size (g_times g)].
Proof.
rewrite /new_integrator /of_model.
case Ef: (g_force g) => [f|] //=; case EK: (g_kernel g) => [K|] //=.
set c0 := (if coeffs is Some _ then _ else _); case Ec: c0 => [c|] //=.
case: ifP => //= cp; case En: (noise_generator _ _) => [[ndt fs]|e] //= _.
exists f, K, c; split=> // d0; move: En; rewrite /noise_generator.
case: (rd (g_times g) 1) (@rd_ok _ 0 (g_times g) 1) => [t1|] //= /(_ _ erefl)[n1 _].
case: (rd _ 0) => [t0|] //=.
case Em: (mapM _ _) => [l|] //= _; move: Em => /(mapM_nth [::] 0%N)[_]; rewrite size_iota => H.
split.
  have lt : ((cols3 K).-1 < cols3 K)%N by lia.
  have := H _ lt; rewrite nth_iota // add0n; case: ltnP => //= ; lia.
have := H 0%N d0; rewrite nth_iota //=; case: ltnP => //= _ /filter_sizes => /(_ n1) <-.
by rewrite size_diagonal /=; case: (trunc).
Qed.

Lemma build_without_model kw coeffs trunc it : new_integrator None coeffs trunc kw <> Ok it.
Proof.
rewrite /new_integrator /of_kwargs; case: (kw_basis kw) => //=; case: (kw_force kw) => //= f.
case: (kw_kernel kw) => //= k; case: (kw_dt kw) => //= dt; case: (size k.1) => //= _.
case: coeffs => //= c; case: k.1 => [|n [|r [|d []]]] //=.
by case: ifP.
Qed.

Lemma documented_kwargs f k dt v : (0 < size k)%N ->
  new_integrator None None None (Kwargs true (Some f) (Some (k, v)) (Some dt)) = Err AttributeError.
Proof. by rewrite /new_integrator /of_kwargs /= => ->. Qed.

(** ** A model with one component: kernel 11 7, mass coefficient 1. *)
Definition one2 (x : R) : arr2 := Arr2 1 1 (fun _ _ => x).
Definition kern3 : arr3 := Arr3 2 1 1 (fun i _ _ => nth 0 kern i).
Definition fitted (mass : option arr2) (dt : R) : gle_model :=
  GleModel (Some (one2 5)) (Some kern3) tims mass dt 2 1 1 false None.
Definition no_kwargs := Kwargs false None None None.

Lemma fitted_buildable dt : buildable (fitted (Some (one2 1)) dt) None None (one2 5) kern3 (one2 1).
Proof. by split. Qed.

Lemma fitted_grid mass dt : on_grid (fitted mass dt) 2 1.
Proof. by split=> //; [lra | exact: tims_grid]. Qed.

Lemma fitted_built dt : exists it, new_integrator (Some (fitted (Some (one2 1)) dt)) None None no_kwargs = Ok it /\
  [/\ i_filters it = [:: [:: 1; 3; 1]], i_dt it = dt & i_noise_dt it = 1].
Proof.
have [it [E [[_ _ Ed _] _ En sF HF]]] := @build_ok (fitted (Some (one2 1)) dt) None None no_kwargs _ _ _ _ (fitted_buildable dt) (fitted_grid _ _).
exists it; split=> //; split=> //.
have [k [sk Hk]] := HF 0%N erefl.
have -> : k = kern.
  apply: (@eq_from_nth _ 0); rewrite sk // => i ri; rewrite Hk // /noise_kernel /=.
  by rewrite /rsum /=; ring.
by case: (i_filters it) sF => [|x [|]] //= _; rewrite kern_filter => [[<-]].
Qed.
