(** * The noise correlations and the noise restarted at every window start. *)
From mathcomp Require Import all_ssreflect all_algebra.
From mathcomp Require Import zify.
From Verif Require Import Base Tactics FKernel Model Estimator EstimatorSpec Quadrature FKernelSpec MemorySpec.
From Verif Require Import FKernelProofs MemoryProofs VolterraMain EstimatorProofs EstimatorProofs2 EstimatorProofs3.
Set Implicit Arguments.
Unset Strict Implicit.
Unset Printing Implicit Defensive.
Import Order.TTheory GRing.Theory Num.Theory.
Local Open Scope ring_scope.

(** Samples [h] apart. *)
Definition evenly_sampled (R : realFieldType) dx o (h : R) (xva : seq (sample R dx o)) :=
  forall i, (i.+1 < size xva)%N ->
    nth 0 [seq s_t s | s <- xva] i.+1 - nth 0 [seq s_t s | s <- xva] i = h.

Section Corr.
Variables (R : realFieldType) (dx o : nat) (m : model_fns R dx o) (d q : nat).
Local Notation smp := (sample R dx o).
Variable proj : smp -> 'rV[R]_d.
Implicit Types (xva : seq smp) (kern : seq 'M[R]_(d, o)) (c : 'M[R]_(mf m, o)) (left : seq 'rV[R]_q).

(** Observable minus mean force, component by component. *)
Definition residual c xva : seq 'rV[R]_o := [seq s_obs s - Ef m s *m c | s <- xva].

Lemma corrs_noise_trapz c times kern mt xva left h :
  mt = Some MTrapz \/ mt = Some MSecondTrapz ->
  (1 < size xva)%N -> evenly_sampled h xva -> size left = size xva ->
  size times = size kern -> (size kern <= size xva)%N ->
  exists ts C,
    [/\ compute_corrs_w_noise (m := m) proj (Some c) (Some (times, kern)) mt xva left = Ok (ts, C),
        size ts = (size kern).-1, size C = (size kern).-1,
        forall n, (n < (size kern).-1)%N -> ts`_n = times`_n
      & forall n, (n < (size kern).-1)%N ->
          C`_n = window_average left (noise_trapz h (residual c xva) kern [seq proj s | s <- xva]) n].
Proof.
move=> ok sx ev sl st sk; rewrite /compute_corrs_w_noise.
rewrite (rdE 0) ?size_map //= (rdE 0) ?size_map ?(ltnW sx) //= ev // -/(residual c xva).
have [|||C EC [sC HC]] := @corrs_trapzE _ d o q h (residual c xva) kern [seq proj s | s <- xva] left.
- by rewrite !size_map.
- by rewrite !size_map.
- by rewrite !size_map; lia.
exists (take (size times).-1 times), C; split=> //.
- by case: ok => -> /=; rewrite EC.
- by rewrite size_take st; case: (size kern) => // k; rewrite ltnSn.
- by move=> n ln; rewrite nth_take // st.
Qed.

Lemma corrs_noise_rect c times kern mt xva left h :
  mt = None \/ mt = Some MRect \/ mt = Some MSecondRect ->
  (1 < size xva)%N -> evenly_sampled h xva -> size left = size xva ->
  size times = size kern -> (size kern <= size xva)%N ->
  exists C,
    [/\ compute_corrs_w_noise (m := m) proj (Some c) (Some (times, kern)) mt xva left = Ok (times, C),
        size C = size kern
      & forall n, (n < size kern)%N ->
          C`_n = window_average left (noise_rect h (residual c xva) kern [seq proj s | s <- xva]) n].
Proof.
move=> ok sx ev sl st sk; rewrite /compute_corrs_w_noise.
rewrite (rdE 0) ?size_map //= (rdE 0) ?size_map ?(ltnW sx) //= ev // -/(residual c xva).
have [|||C EC [sC HC]] := @corrs_rectE _ d o q h (residual c xva) kern [seq proj s | s <- xva] left.
- by rewrite !size_map.
- by rewrite !size_map.
- by rewrite !size_map; lia.
by exists C; split=> //; case: ok => [->|[->|->]] /=; rewrite EC.
Qed.

(** Time stamps of [compute_noise]. *)
Lemma noise_times c kern mt tr xva tk start stop out s0 :
  compute_noise (m := m) proj (Some c) (Some kern) mt tr xva tk start stop = Ok out ->
  n_time out = [seq s_t s - s_t (nth s0 xva 0) | s <- window xva start stop].
Proof.
rewrite /compute_noise => E; unbind E s1 E0; have [_ es] := rd_ok s0 E0.
rewrite -/(window xva start stop) in E.
unbind E t1 E1; unbind E t2 E2; unbind E memo Em; move: E => [<-] /=.
by rewrite -es.
Qed.

End Corr.

Section Restart.
Variables (R : realFieldType) (dx : nat) (m : model_fns R dx 1) (d : nat).
Local Notation smp := (sample R dx 1).
Variable proj : smp -> 'rV[R]_d.
Implicit Types (xva : seq smp) (kern : seq 'M[R]_(d, 1)) (c : 'M[R]_(mf m, 1)).

(** Rectangle sum as [memory_rect] takes it: both end points of the window. *)
Definition noise_rect_closed h (xi : seq 'rV[R]_1) kern (E : seq 'rV[R]_d) (t n : nat) : 'rV[R]_1 :=
  xi`_(t + n) + (if n is 0 then 0 else rect_rule h (mem_integrand E kern (t + n)) n.+1).

Lemma integrand_window kern L (E : seq 'rV[R]_d) t n j :
  (j <= n)%N -> (n < L)%N ->
  mem_integrand (drop t E) (take L kern) n j = mem_integrand E kern (t + n) j.
Proof.
move=> jn nL; rewrite /mem_integrand nth_drop nth_take; last by lia.
by congr (E`_ _ *m _); lia.
Qed.

Lemma noise_restart c kern mt tr xva tk t h :
  (t.+1 < size xva)%N -> evenly_sampled h xva -> (0 < size (take (odflt tr tk) kern))%N ->
  (match mt with None | Some MRect | Some MSecondRect | Some MTrapz | Some MSecondTrapz => true | _ => false end) ->
  exists2 out, compute_noise (m := m) proj (Some c) (Some kern) mt tr xva tk t None = Ok out &
    forall n, (t + n < size xva)%N -> (n < size (take (odflt tr tk) kern))%N ->
      (n_noise out)`_n =
        (match mt with
         | Some MTrapz | Some MSecondTrapz => noise_trapz h (residual c xva) kern [seq proj s | s <- xva]
         | _ => noise_rect_closed h (residual c xva) kern [seq proj s | s <- xva] end) t n.
Proof.
move=> st ev sk ok.
have sw : (1 < size (window xva t None))%N by rewrite /window size_drop; lia.
have [out E [[sn sm sf] ob h0 Hf H]] := noise_total (m := m) proj c sw sk ok.
exists out => // n ln nk.
have lw : (n < size (window xva t None))%N by rewrite /window size_drop; lia.
have mem : (n_memory out)`_n = - (match mt with
    | Some MTrapz | Some MSecondTrapz => trapz_rule h (mem_integrand [seq proj s | s <- xva] kern (t + n)) n
    | _ => if n is 0 then 0 else rect_rule h (mem_integrand [seq proj s | s <- xva] kern (t + n)) n.+1 end).
  case: n => [|n] in ln nk lw *.
    by rewrite h0 /trapz_rule big_ord0 scaler0; case: mt {ok E} => [[]|] /=; rewrite ?oppr0.
  move: (E); rewrite /compute_noise => E'; unbind E' s0 E0.
  rewrite -/(window xva t None) in E'; unbind E' t1 E1; unbind E' t2 E2; unbind E' memo Em.
  have dtE : t1 - t2 = h.
    have [_ ->] := rd_ok 0 E1; have [_ ->] := rd_ok 0 E2.
    have sa : (0 < size (window xva t None))%N by apply: ltnW.
    rewrite !(nth_map s0) // -(ev t) // !(nth_map s0) ?(ltnW st) //.
    by rewrite /window !nth_drop addn0 addn1; abel.
  move: E' => [<-] /=; rewrite dtE in Em.
  have sE : (0 < size [seq proj s | s <- window xva t None])%N by rewrite size_map; apply: ltnW.
  have EE : [seq proj s | s <- window xva t None] = drop t [seq proj s | s <- xva] by rewrite /window map_drop.
  set L := odflt tr tk in sk nk Em; have nL : (n.+1 < L)%N.
    by move: nk; rewrite size_take; case: (ltnP L (size kern)) => hL hn; lia.
  have rect : memory_rect h (take L kern) [seq proj s | s <- window xva t None] = Ok memo ->
      memo`_n.+1 = - rect_rule h (mem_integrand [seq proj s | s <- xva] kern (t + n.+1)) n.+2.
    have [m' -> [_ _ Hm]] := memory_rectE h sk sE => -[<-].
    rewrite Hm ?size_map //; have -> : minn n.+1 (size (take L kern)).-1 = n.+1 by lia.
    rewrite EE; congr (- (_ *: _)); apply: eq_bigr => j _.
    by rewrite integrand_window //; case: j => j /=; lia.
  have trap : memory_trapz h (take L kern) [seq proj s | s <- window xva t None] = Ok memo ->
      memo`_n.+1 = - trapz_rule h (mem_integrand [seq proj s | s <- xva] kern (t + n.+1)) n.+1.
    have [m' -> [_ _ Hm]] := memory_trapz_main h sk sE => -[<-].
    rewrite Hm ?size_map //; have -> : minn n.+1 (size (take L kern)).-1 = n.+1 by lia.
    rewrite (_ : ((size (take L kern)).-1 < n.+1)%N = false); last by lia.
    rewrite addr0 EE; congr (- (_ *: _)); apply: eq_bigr => j _.
    by rewrite !integrand_window //; case: j => j /=; lia.
  by case: mt ok Em {E} => [[]|] //= _ Em; first [exact: rect|exact: trap].
have -> : (n_noise out)`_n = (n_obs out)`_n - const_mx (n_force out)`_n - (n_memory out)`_n.
  by rewrite H //; abel.
rewrite mem opprK Hf ob.
have s0 : smp by case: (xva) ln => [|s] //; rewrite ltn0.
rewrite !(nth_map s0) // noise_one_component.
have -> : s_obs (nth s0 (window xva t None) n) - Ef m (nth s0 (window xva t None) n) *m c
        = (residual c xva)`_(t + n).
  by rewrite /residual (nth_map s0) // /window nth_drop.
by case: mt {ok E mem} => [[]|].
Qed.

(** The English claim, trapezoidal case. *)
Lemma corrs_noise_is_average q c times kern mt tr xva (left : seq 'rV[R]_q) h :
  mt = Some MTrapz \/ mt = Some MSecondTrapz ->
  (1 < size xva)%N -> evenly_sampled h xva -> size left = size xva ->
  size times = size kern -> (size kern <= size xva)%N -> (size kern <= tr)%N ->
  exists ts C, compute_corrs_w_noise (m := m) proj (Some c) (Some (times, kern)) mt xva left = Ok (ts, C) /\
    forall n, (0 < n < (size kern).-1)%N ->
      exists2 noises : nat -> noise_out R 1,
        forall t, (t + n < size xva)%N ->
          compute_noise (m := m) proj (Some c) (Some kern) mt tr xva None t None = Ok (noises t)
      & C`_n = window_average left (fun t n => (n_noise (noises t))`_n) n.
Proof.
move=> ok sx ev sl st sk tk.
have [ts [C [E _ _ _ HC]]] := corrs_noise_trapz (m := m) proj c ok sx ev sl st sk.
exists ts, C; split=> // n /andP[n0 ln].
have okb : is_true (match mt with None | Some MRect | Some MSecondRect | Some MTrapz | Some MSecondTrapz => true | _ => false end).
  by case: ok => ->.
have tkE : take (odflt tr None) kern = kern by rewrite take_oversize.
have sk' : (0 < size (take (odflt tr None) kern))%N by rewrite tkE; lia.
pose noises t := if compute_noise (m := m) proj (Some c) (Some kern) mt tr xva None t None is Ok out then out
                 else Noise [::] [::] [::] [::] [::].
have Hn t : (t + n < size xva)%N -> compute_noise (m := m) proj (Some c) (Some kern) mt tr xva None t None = Ok (noises t)
    /\ (n_noise (noises t))`_n = noise_trapz h (residual c xva) kern [seq proj s | s <- xva] t n.
  move=> lt; have [|out E' H] := @noise_restart c kern mt tr xva None t h _ ev sk' okb; first by lia.
  rewrite /noises E'; split=> //; rewrite H //; first by case: ok => ->.
  by rewrite tkE; lia.
exists noises => [t lt|]; first by have [] := Hn t lt.
rewrite HC // /window_average; congr (_ *: _); apply: eq_bigr => t _.
by have [|_ ->] := Hn t; first by rewrite -sl; have := ltn_ord t; lia.
Qed.

(** Rectangular case: the restarted noise carries one term more. *)
Lemma corrs_noise_rect_average q c times kern mt tr xva (left : seq 'rV[R]_q) h :
  mt = None \/ mt = Some MRect \/ mt = Some MSecondRect ->
  (1 < size xva)%N -> evenly_sampled h xva -> size left = size xva ->
  size times = size kern -> (size kern <= size xva)%N -> (size kern <= tr)%N ->
  exists ts C, compute_corrs_w_noise (m := m) proj (Some c) (Some (times, kern)) mt xva left = Ok (ts, C) /\
    forall n, (0 < n < size kern)%N ->
      exists2 noises : nat -> noise_out R 1,
        forall t, (t + n < size xva)%N ->
          compute_noise (m := m) proj (Some c) (Some kern) mt tr xva None t None = Ok (noises t)
      & C`_n = window_average left
                 (fun t n => (n_noise (noises t))`_n - h *: ([seq proj s | s <- xva]`_t *m kern`_n)) n.
Proof.
move=> ok sx ev sl st sk tk.
have [C [E _ HC]] := corrs_noise_rect (m := m) proj c ok sx ev sl st sk.
exists times, C; split=> // n /andP[n0 ln].
have okb : is_true (match mt with None | Some MRect | Some MSecondRect | Some MTrapz | Some MSecondTrapz => true | _ => false end).
  by case: ok => [->|[->|->]].
have tkE : take (odflt tr None) kern = kern by rewrite take_oversize.
have sk' : (0 < size (take (odflt tr None) kern))%N by rewrite tkE; lia.
pose noises t := if compute_noise (m := m) proj (Some c) (Some kern) mt tr xva None t None is Ok out then out
                 else Noise [::] [::] [::] [::] [::].
have Hn t : (t + n < size xva)%N -> compute_noise (m := m) proj (Some c) (Some kern) mt tr xva None t None = Ok (noises t)
    /\ (n_noise (noises t))`_n = noise_rect_closed h (residual c xva) kern [seq proj s | s <- xva] t n.
  move=> lt; have [|out E' H] := @noise_restart c kern mt tr xva None t h _ ev sk' okb; first by lia.
  rewrite /noises E'; split=> //; rewrite H //; first by case: ok => [->|[->|->]].
  by rewrite tkE; lia.
exists noises => [t lt|]; first by have [] := Hn t lt.
rewrite HC // /window_average; congr (_ *: _); apply: eq_bigr => t _.
have [|_ ->] := Hn t; first by rewrite -sl; have := ltn_ord t; lia.
rewrite /noise_rect_closed /noise_rect; case: n n0 t {ln Hn} => // n _ t.
congr (_ *m _); rewrite -addrA; congr (_ + _).
rewrite /rect_rule [in RHS]big_ord_recr /= scalerDr [mem_integrand _ _ _ n.+1]/mem_integrand addnK.
by rewrite addrK.
Qed.

End Restart.

(** Unit velocity, zero observable, kernel (1, 1). *)
Definition still_traj (R : realFieldType) : seq (sample R 1 1) :=
  [:: (0, 0, 1%:M, 0, 0); (1, 0, 1%:M, 0, 0); (2%:R, 0, 1%:M, 0, 0)].

Lemma still_even (R : realFieldType) : evenly_sampled 1 (still_traj R).
Proof. by case=> [|[|i]] //= _; rewrite /s_t /= ?subr0 // (natrD _ 1 1) addrK. Qed.

Lemma corrs_noise_rect_refuted (R : realFieldType) :
  exists (m : model_fns R 1 1) c times kern xva left ts C n (noises : nat -> noise_out R 1),
    [/\ [/\ size times = size kern, (size kern <= size xva)%N & size left = size xva],
        evenly_sampled 1 xva,
        compute_corrs_w_noise (m := m) (q := 1) (Ek m) (Some c) (Some (times, kern)) (Some MRect) xva left = Ok (ts, C),
        (n < size kern)%N /\
        forall t, (t + n < size xva)%N ->
          compute_noise (m := m) (Ek m) (Some c) (Some kern) (Some MRect) (size kern) xva None t None = Ok (noises t)
      & C`_n <> window_average left (fun t n => (n_noise (noises t))`_n) n].
Proof.
pose m := Pos_gle 1 (lin1 R).
pose kern := [:: 1%:M : 'M[R]_1; 1%:M]; pose left := nseq 3 (1%:M : 'rV[R]_1).
have [|||||||ts [C [E H]]] := @corrs_noise_rect_average R 1 m _ (Ek m) 1 0 [:: 0; 1] kern (Some MRect) 2 (still_traj R) left 1; try by [].
- by right; left.
- exact: still_even.
have [noises N HC] := H 1%N isT.
exists m, 0, [:: 0; 1], kern, (still_traj R), left, ts, C, 1%N, noises; split=> //; first exact: still_even.
rewrite HC /window_average => /(congr1 (fun A => (size left - 1)%:R *: A)).
have nz : (size left - 1)%:R != 0 :> R by rewrite pnatr_eq0.
rewrite !(scalerA (size left - 1)%:R) !divff // !scale1r => /eqP; rewrite -subr_eq0 -sumrB.
have -> : \sum_(t < size left - 1) ((left`_t)^T *m ((n_noise (noises t))`_1
            - 1 *: ([seq Ek m s | s <- still_traj R]`_t *m kern`_1)) - (left`_t)^T *m (n_noise (noises t))`_1)
        = \sum_(t < 2) - (1%:M : 'M[R]_1).
  apply: eq_bigr => t _; rewrite -mulmxBr addrAC subrr add0r scale1r mulmx1.
  have -> : left`_t = 1%:M by case: t => [[|[|t]]].
  rewrite trmx1 mul1mx; congr (- _).
  have -> : [seq Ek m s | s <- still_traj R]`_t = Ek m (0, 0, 1%:M, 0, 0) by case: t => [[|[|t]]].
  by apply/matrixP => i j; rewrite /= /grad_dot !mxE big_ord1 !ord1 !mxE mulr1.
rewrite sumrN sumr_const card_ord oppr_eq0 => /eqP/matrixP/(_ 0 0) /eqP.
by rewrite mulr2n !mxE -mulr2n (pnatr_eq0 _ 2).
Qed.
