(** * The time derivative of the kernel basis. *)
From mathcomp Require Import all_ssreflect all_algebra.
From Verif Require Import Base Tactics Model Smooth.
Set Implicit Arguments.
Unset Strict Implicit.
Unset Printing Implicit Defensive.
Import Order.TTheory GRing.Theory Num.Theory.
Local Open Scope ring_scope.
Local Hint Extern 0 (is_true (_ < _)) => exact: ltr01 : core.
Local Hint Extern 0 (is_true (_ <= _)) => exact: ler01 : core.
Local Hint Extern 0 (is_true (_ <= _)) => exact: normr_ge0 : core.
Local Hint Extern 0 (is_true (_ <= _)) => exact: lexx : core.

Section Near.
Variables (R : realFieldType) (t : R).

Definition near (P : R -> Prop) : Prop := exists2 d, 0 < d & forall s, `|s - t| < d -> P s.

Lemma near_and P Q : near P -> near Q -> near (fun s => P s /\ Q s).
Proof.
move=> [d d0 H] [e e0 H']; exists (Num.min d e); first by rewrite lt_minr d0.
by move=> s; rewrite lt_minr => /andP[/H ? /H'].
Qed.

Lemma near_imp (P Q : R -> Prop) : (forall s, P s -> Q s) -> near P -> near Q.
Proof. by move=> H [d d0 H']; exists d => // s /H' /H. Qed.

Lemma near_all n (P : 'I_n -> R -> Prop) : (forall j, near (P j)) -> near (fun s => forall j, P j s).
Proof.
elim: n P => [|n IH] P H; first by exists 1; rewrite ?ltr01 // => s _ [].
have := near_and (H ord0) (IH (fun j => P (lift ord0 j)) (fun j => H _)).
by apply: near_imp => s [h0 h1] j; case: (unliftP ord0 j) => [k ->|->].
Qed.

End Near.

Section Rules.
Variables (R : realFieldType) (t : R).
Add Field RF : (mc_field_theory R).
Local Ltac rng := fold_ring (Num.RealField.fieldType R); ring.
Implicit Types f g : R -> R.

Lemma derivE f l : has_derivative f t l <->
  forall e, 0 < e -> near t (fun s => `|f s - f t - l * (s - t)| <= e * `|s - t|).
Proof. by []. Qed.

Lemma deriv_ext f g l : f =1 g -> has_derivative f t l -> has_derivative g t l.
Proof. by move=> fg H e /H [d d0 Hd]; exists d => // s /Hd; rewrite !fg. Qed.

Lemma deriv_lip f l : has_derivative f t l -> near t (fun s => `|f s - f t| <= (`|l| + 1) * `|s - t|).
Proof.
move=> /(_ 1 ltr01) [d d0 H]; exists d => // s /H; rewrite mul1r => h.
have -> : f s - f t = (f s - f t - l * (s - t)) + l * (s - t) by rewrite subrK.
by apply: le_trans (ler_norm_add _ _) _; rewrite normrM mulrDl mul1r addrC ler_add2l.
Qed.

Lemma deriv_add f g l l' :
  has_derivative f t l -> has_derivative g t l' -> has_derivative (fun s => f s + g s) t (l + l').
Proof.
move=> Hf Hg e e0; have e2 : 0 < e / 2%:R by rewrite divr_gt0 // ltr0n.
have := near_and (Hf _ e2) (Hg _ e2); apply: near_imp => s [h1 h2].
have -> : f s + g s - (f t + g t) - (l + l') * (s - t)
        = (f s - f t - l * (s - t)) + (g s - g t - l' * (s - t)) by rewrite mulrDl; abel.
apply: le_trans (ler_norm_add _ _) _; apply: le_trans (ler_add h1 h2) _.
by rewrite -mulrDl -splitr.
Qed.

Lemma deriv_const c : has_derivative (fun=> c) t 0.
Proof.
by move=> e e0; exists 1; rewrite ?ltr01 // => s _; rewrite subrr sub0r mul0r oppr0 normr0 mulr_ge0 // ltW.
Qed.

Lemma deriv_sum n (f : 'I_n -> R -> R) (l : 'I_n -> R) :
  (forall i, has_derivative (f i) t (l i)) ->
  has_derivative (fun s => \sum_i f i s) t (\sum_i l i).
Proof.
elim: n f l => [|n IH] f l H.
  rewrite big_ord0; apply: deriv_ext (deriv_const 0) => s; by rewrite big_ord0.
rewrite big_ord_recl; apply: deriv_ext (deriv_add (H ord0) (IH _ _ (fun i => H (lift ord0 i)))) => s.
by rewrite big_ord_recl.
Qed.

Lemma near_small (B e : R) : 0 < e -> 0 <= B -> near t (fun s => B * `|s - t| <= e).
Proof.
move=> e0 B0; exists (e / (B + 1)); first by rewrite divr_gt0 // ltr_paddl ?ltr01.
move=> s; have B1 : 0 < B + 1 by rewrite ltr_paddl ?ltr01.
rewrite ltr_pdivl_mulr // => /ltW; apply: le_trans.
by rewrite mulrC ler_wpmul2l // ler_addl.
Qed.

Lemma deriv_mul f g l l' :
  has_derivative f t l -> has_derivative g t l' ->
  has_derivative (fun s => f s * g s) t (l * g t + f t * l').
Proof.
move=> Hf Hg e e0.
(* f s g s - f t g t = (df) g t + f t (dg) + df dg *)
pose M := `|f t| + `|g t| + 1.
have M0 : 0 < M by rewrite ltr_paddl ?ltr01 // addr_ge0.
pose e1 := e / (2%:R * M); have e10 : 0 < e1 by rewrite divr_gt0 // mulr_gt0 // ltr0n.
have B0 : 0 <= (`|l| + 1) * (`|l'| + 1) by rewrite mulr_ge0 // addr_ge0.
have e2 : 0 < e / 2%:R by rewrite divr_gt0 // ltr0n.
have := near_and (near_and (Hf _ e10) (Hg _ e10))
          (near_and (near_and (deriv_lip Hf) (deriv_lip Hg)) (near_small e2 B0)).
apply: near_imp => s [[h1 h2] [[h3 h4] h5]].
have -> : f s * g s - f t * g t - (l * g t + f t * l') * (s - t)
        = ((f s - f t - l * (s - t)) * g t + f t * (g s - g t - l' * (s - t)))
          + (f s - f t) * (g s - g t).
  by rng.
have M1 : `|g t| + `|f t| <= M by rewrite /M addrC ler_addl.
have k1 : e1 * M = e / 2%:R.
  by rewrite /e1 invfM mulrA -mulrA mulVf ?mulr1 // gt_eqF.
apply: le_trans (ler_norm_add _ _) _; rewrite (_ : e * `|s - t| = e / 2%:R * `|s - t| + e / 2%:R * `|s - t|);
  last (by rewrite -mulrDl -splitr); apply: ler_add.
  apply: le_trans (ler_norm_add _ _) _; rewrite !normrM -k1.
  apply: (@le_trans _ _ (e1 * `|s - t| * `|g t| + `|f t| * (e1 * `|s - t|))).
    by apply: ler_add; [apply: ler_wpmul2r|apply: ler_wpmul2l].
  rewrite [`|f t| * _]mulrC -mulrDr mulrAC; apply: ler_wpmul2r => //.
  by apply: ler_wpmul2l => //; apply: ltW.
rewrite normrM; apply: le_trans (ler_pmul (normr_ge0 _) (normr_ge0 _) h3 h4) _.
by rewrite mulrACA mulrA; apply: ler_wpmul2r.
Qed.

(** Chain rule. *)
Lemma deriv_comp n (g : 'rV[R]_n -> R) (x : R -> 'rV[R]_n) (G v : 'I_n -> R) :
  has_gradient g (x t) G -> (forall j, has_derivative (fun s => x s 0 j) t (v j)) ->
  has_derivative (fun s => g (x s)) t (\sum_j G j * v j).
Proof.
move=> Hg Hx e e0; have e2 : 0 < e / 2%:R by rewrite divr_gt0 // ltr0n.
have B0 : 0 <= \sum_j (`|v j| + 1) by apply: sumr_ge0 => j _; rewrite addr_ge0 ?ler01.
pose B := \sum_j (`|v j| + 1) + 1; have Bp : 0 < B by rewrite ltr_paddl ?ltr01.
pose C := \sum_j `|G j| + 1; have C0 : 0 <= \sum_j `|G j| by apply: sumr_ge0.
have Cp : 0 < C by rewrite ltr_paddl ?ltr01.
pose e1 := e / 2%:R / B; have e10 : 0 < e1 by rewrite divr_gt0.
pose e3 := e / 2%:R / C; have e30 : 0 < e3 by rewrite divr_gt0.
have [d d0 Hd] := Hg _ e10.
have d2 : 0 < d / 2%:R by rewrite divr_gt0 // ltr0n.
have lip : near t (fun s => forall j, `|x s 0 j - x t 0 j| <= (`|v j| + 1) * `|s - t|).
  by apply: near_all => j; apply: deriv_lip.
have lit : near t (fun s => forall j, (`|v j| + 1) * `|s - t| <= d / 2%:R).
  by apply: near_all => j; apply: near_small => //; rewrite addr_ge0 ?ler01.
have der : near t (fun s => forall j, `|x s 0 j - x t 0 j - v j * (s - t)| <= e3 * `|s - t|).
  by apply: near_all => j; apply: Hx.
apply: near_imp (near_and (near_and lip lit) der) => s [[h1 h2] h3].
have -> : g (x s) - g (x t) - (\sum_j G j * v j) * (s - t)
        = (g (x s) - g (x t) - \sum_j G j * (x s 0 j - x t 0 j))
          + \sum_j G j * (x s 0 j - x t 0 j - v j * (s - t)).
  rewrite mulr_suml.
  have -> : \sum_j G j * (x s 0 j - x t 0 j - v j * (s - t))
          = \sum_j G j * (x s 0 j - x t 0 j) - \sum_j G j * v j * (s - t).
    by rewrite -sumrB; apply: eq_bigr => j _; rewrite mulrBr mulrA.
  by abel.
apply: le_trans (ler_norm_add _ _) _; rewrite (_ : e * `|s - t| = e / 2%:R * `|s - t| + e / 2%:R * `|s - t|);
  last (by rewrite -mulrDl -splitr); apply: ler_add.
  apply: le_trans (Hd _ _) _ => [j|].
    by apply: le_lt_trans (h1 j) (le_lt_trans (h2 j) _); rewrite ltr_pdivr_mulr ?ltr0n // ltr_pmulr // ltr1n.
  have -> : e / 2%:R = e1 * B by rewrite /e1 mulfVK // gt_eqF.
  rewrite -mulrA; apply: ler_wpmul2l; first exact: ltW.
  apply: (@le_trans _ _ (\sum_j (`|v j| + 1) * `|s - t|)); first by apply: ler_sum.
  by rewrite -mulr_suml; apply: ler_wpmul2r => //; rewrite ler_addl.
apply: le_trans (ler_norm_sum _ _ _) _.
have -> : e / 2%:R = e3 * C by rewrite /e3 mulfVK // gt_eqF.
apply: (@le_trans _ _ (\sum_j `|G j| * (e3 * `|s - t|))).
  by apply: ler_sum => j _; rewrite normrM; apply: ler_wpmul2l.
rewrite -mulr_suml [e3 * C]mulrC -(mulrA C); apply: ler_wpmul2r; last by rewrite ler_addl.
by rewrite mulr_ge0 // ltW.
Qed.

End Rules.

(** ** The model classes *)
Section Models.
Variables (R : realFieldType) (dx o : nat).
Implicit Types (traj : R -> sample R dx o) (b : basis_fns R dx).

Lemma deriv_grad_dot b traj t k :
  smooth_at traj t -> hessian_correct b (s_x (traj t)) ->
  has_derivative (fun s => grad_dot b (traj s) (s_v (traj s)) 0 k) t (acc_term b (traj t) 0 k).
Proof.
move=> [Hx Hv] Hh.
have -> : acc_term b (traj t) 0 k =
    \sum_(i < dx) ((\sum_(j < dx) @bhess R dx b (s_x (traj t)) k i j * s_v (traj t) 0 j) * s_v (traj t) 0 i
                   + bderiv b (s_x (traj t)) k i * s_a (traj t) 0 i).
  rewrite /acc_term !mxE big_split /= addrC; congr (_ + _).
  apply: eq_bigr => i _; rewrite mulr_suml; apply: eq_bigr => j _.
  by rewrite -!mulrA; congr (_ * _); rewrite mulrC.
apply: (@deriv_ext _ _ (fun s => \sum_(i < dx) bderiv b (s_x (traj s)) k i * s_v (traj s) 0 i)).
  by move=> s; rewrite mxE.
apply: deriv_sum => i; apply: deriv_mul; last exact: Hv.
exact: (deriv_comp (x := fun s => s_x (traj s)) (Hh k i) Hx).
Qed.

Lemma deriv_val N (val : 'rV[R]_dx -> 'rV[R]_N) der traj t k :
  smooth_at traj t -> deriv_correct val der (s_x (traj t)) ->
  has_derivative (fun s => val (s_x (traj s)) 0 k) t (grad_dot' der (traj t) (s_v (traj t)) 0 k).
Proof.
move=> [Hx _] Hd; rewrite mxE.
exact: (deriv_comp (x := fun s => s_x (traj s)) (Hd k) Hx).
Qed.

Lemma dE_pos_gle b traj t :
  smooth_at traj t -> hessian_correct b (s_x (traj t)) ->
  dE_is_derivative (Pos_gle o b) traj t /\ dE_is_derivative (Pos_gle_with_friction o b) traj t.
Proof. by move=> H1 H2; split=> k; apply: deriv_grad_dot. Qed.

Lemma dE_const_kernel b traj t :
  smooth_at traj t -> dE_is_derivative (Pos_gle_const_kernel o b) traj t.
Proof. by move=> [_ Hv] k; apply: Hv. Qed.

Lemma dE_overdamped N (val : 'rV[R]_dx -> 'rV[R]_N) der rp traj t :
  smooth_at traj t -> deriv_correct val der (s_x (traj t)) ->
  dE_is_derivative (Pos_gle_overdamped o val der rp) traj t
  /\ dE_is_derivative (Pos_gle_no_vel_basis o val der) traj t.
Proof. by move=> H1 H2; split=> k; apply: deriv_val. Qed.

Lemma dE_hybrid N (val : 'rV[R]_dx -> 'rV[R]_N) der traj t :
  smooth_at traj t -> deriv_correct val der (s_x (traj t)) ->
  dE_is_derivative (Pos_gle_hybrid o val der) traj t.
Proof.
move=> H1 H2 k; rewrite /=.
have E s : match fintype.split k with inl j => s_v (traj s) 0 j | inr j => val (s_x (traj s)) 0 j end
         = row_mx (s_v (traj s)) (val (s_x (traj s))) 0 k by rewrite mxE.
apply: (deriv_ext E); rewrite mxE; case: (fintype.split k) => j; first by case: H1.
exact: deriv_val.
Qed.

End Models.
