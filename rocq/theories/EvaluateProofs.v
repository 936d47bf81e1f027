(** * The evaluations reassemble the terms of the fitted equation. *)
From mathcomp Require Import all_ssreflect all_algebra.
From mathcomp Require Import zify.
From Verif Require Import Base Tactics Model Estimator Evaluate.
Set Implicit Arguments.
Unset Strict Implicit.
Unset Printing Implicit Defensive.
Import Order.TTheory GRing.Theory Num.Theory.
Local Open Scope ring_scope.

Section Rows.
Variable R : realFieldType.

Lemma row_atE p w (A : 'M[R]_(p, w)) (i : 'I_p) : row_at A i = row i A.
Proof. by rewrite /row_at; case: insubP => [j _ /val_inj ->|]; rewrite ?ltn_ord. Qed.

Lemma dot_basisE p o x (K : 'M[R]_(p, o)) (E : 'M[R]_(p, x)) : dot_basis K E = K^T *m E.
Proof.
by apply/matrixP => l j; rewrite !mxE; apply: eq_bigr => k _; rewrite row_atE !mxE.
Qed.

End Rows.

Section Kernel.
Variables (R : realFieldType) (dx o : nat).
Local Notation smp := (sample R dx o).

(** The general contraction. *)
Lemma kernel_evalE (m : model_fns R dx o) r (P : option 'M[R]_(r, mq m))
    (kern : seq 'M[R]_(if P is Some _ then r else mq m, o)) xs :
  kernel_eval P (Some kern) xs = Ok [seq [seq K^T *m kernel_basis P s | s <- xs] | K <- kern].
Proof.
rewrite /kernel_eval eqxx /=; congr Ok; apply: eq_map => K; apply: eq_map => s.
exact: dot_basisE.
Qed.

Lemma kernel_eval_mismatch (m : model_fns R dx o) r (P : option 'M[R]_(r, mq m)) p (kern : seq 'M[R]_(p, o)) xs :
  p != (if P is Some _ then r else mq m) -> kernel_eval P (Some kern) xs = Err ValueError.
Proof. by rewrite /kernel_eval => /negbTE ->. Qed.

Lemma grad_dotE (b : basis_fns R dx) (s : smp) u : grad_dot b s u = u *m (bderiv b (s_x s))^T.
Proof. by apply/rowP => k; rewrite !mxE; apply: eq_bigr => j _; rewrite !mxE mulrC. Qed.

Lemma nth_eval (m : model_fns R dx o) r (P : option 'M[R]_(r, mq m))
    (kern : seq 'M[R]_(if P is Some _ then r else mq m, o)) xs G s0 n i :
  kernel_eval P (Some kern) xs = Ok G -> (n < size kern)%N -> (i < size xs)%N ->
  nth 0 (nth [::] G n) i = (kern`_n)^T *m kernel_basis P (nth s0 xs i).
Proof.
by rewrite kernel_evalE => -[<-] ln li; rewrite (nth_map 0) // (nth_map s0).
Qed.

Lemma eval_sizes (m : model_fns R dx o) r (P : option 'M[R]_(r, mq m)) p
    (kern : seq 'M[R]_(p, o)) xs G :
  kernel_eval P (Some kern) xs = Ok G ->
  size G = size kern /\ forall n, (n < size kern)%N -> size (nth [::] G n) = size xs.
Proof.
rewrite /kernel_eval; case: eqP => //= _ [<-]; rewrite size_map; split=> // n ln.
by rewrite (nth_map 0) // size_map.
Qed.

(** Position dependent kernels act on the velocity. *)
Lemma kernel_eval_pos_gle (b : basis_fns R dx) r (P : option 'M[R]_(r, nderiv b))
    (kern : seq 'M[R]_(if P is Some _ then r else nderiv b, o)) (xs : seq smp) s0 :
  exists2 G, kernel_eval (m := Pos_gle o b) P (Some kern) xs = Ok G &
    [/\ size G = size kern, forall n, (n < size kern)%N -> size (nth [::] G n) = size xs
      & forall n i, (n < size kern)%N -> (i < size xs)%N ->
          s_v (nth s0 xs i) *m (nth 0 (nth [::] G n) i)^T
          = projected (m := Pos_gle o b) P (nth s0 xs i) *m kern`_n].
Proof.
have [G E] : exists G, kernel_eval (m := Pos_gle o b) P (Some kern) xs = Ok G.
  by eexists; apply: (@kernel_evalE (Pos_gle o b)).
exists G => //; have [sG sn] := eval_sizes E; split=> // n i ln li.
rewrite (@nth_eval (Pos_gle o b) _ P kern xs G s0 n i E ln li) trmx_mul trmxK mulmxA; congr (_ *m _).
case: P {kern E ln G sG sn} => [P|] /=; rewrite grad_dotE // trmx_mul mulmxA //.
Qed.

Lemma kernel_eval_friction (b : basis_fns R dx) r (P : option 'M[R]_(r, nderiv b)) p
    (kern : option (seq 'M[R]_(p, o))) xs :
  kernel_eval (m := Pos_gle_with_friction o b) P kern xs = kernel_eval (m := Pos_gle o b) P kern xs.
Proof. by []. Qed.

Lemma kernel_eval_overdamped N (val : 'rV[R]_dx -> 'rV[R]_N) der rp r (P : option 'M[R]_(r, N))
    (kern : seq 'M[R]_(if P is Some _ then r else N, o)) (xs : seq smp) s0 :
  exists2 G, kernel_eval (m := Pos_gle_overdamped o val der rp) P (Some kern) xs = Ok G &
    [/\ size G = size kern, forall n, (n < size kern)%N -> size (nth [::] G n) = size xs
      & forall n i (j : 'I_dx), (n < size kern)%N -> (i < size xs)%N ->
          (col j (nth 0 (nth [::] G n) i))^T
          = projected (m := Pos_gle_overdamped o val der rp) P (nth s0 xs i) *m kern`_n].
Proof.
pose m := Pos_gle_overdamped o val der rp.
have [G E] : exists G, kernel_eval (m := m) P (Some kern) xs = Ok G.
  by eexists; apply: (@kernel_evalE m).
exists G => //; have [sG sn] := eval_sizes E; split=> // n i j ln li.
rewrite (@nth_eval m _ P kern xs G s0 n i E ln li) colE trmx_mul trmx_mul trmxK mulmxA.
congr (_ *m _); set s := nth s0 xs i.
have K1 : (delta_mx j 0 : 'cV[R]_dx)^T *m (expanded val s)^T = val (s_x s).
  rewrite -trmx_mul -colE; apply/rowP => k; by rewrite !mxE.
by case: P {kern E ln G sG sn} => [P|] /=; rewrite ?trmx_mul ?mulmxA K1.
Qed.

End Kernel.

Section Hybrid.
Variables (R : realFieldType) (o : nat).

Lemma kernel_eval_hybrid N (val : 'rV[R]_1 -> 'rV[R]_N) der (kern : seq 'M[R]_(1 + N, o))
    (xs : seq (sample R 1 o)) s0 :
  exists C G, [/\ get_const_kernel_part (Some kern) = Ok C,
    hybrid_kernel_eval (Pos_gle_hybrid o val der) (Some kern) xs = Ok G
    & forall n i, (n < size kern)%N -> (i < size xs)%N ->
        let s := nth s0 xs i in
        Ek (Pos_gle_hybrid o val der) s *m kern`_n
        = s_v s 0 0 *: C`_n + (nth 0 (nth [::] G n) i)^T].
Proof.
pose m := Pos_gle_hybrid o val der.
pose kd : seq 'M[R]_(N, o) := [seq drop_row K | K <- kern].
have [G E] : exists G, kernel_eval (m := m) (r := 0) None (Some kd) xs = Ok G.
  by eexists; apply: (@kernel_evalE R 1 o m 0 None).
exists [seq row_at K 0 | K <- kern], G; split=> // n i ln li s.
have ln' : (n < size kd)%N by rewrite size_map.
rewrite (@nth_eval R 1 o m 0 None kd xs G s0 n i E ln' li) /kd !(nth_map 0) //=.
set K := kern`_n; rewrite trmx_mul trmxK.
have -> : row_mx (s_v s) (val (s_x s)) *m K = row_mx (s_v s) (val (s_x s)) *m col_mx (usubmx K) (dsubmx K).
  by rewrite vsubmxK.
rewrite mul_row_col; congr (_ + _).
  apply/rowP => l; rewrite !mxE big_ord1 !mxE; congr (_ * _).
  have -> : row_at K 0 = row (lshift N (0 : 'I_1)) K by rewrite -row_atE.
  by rewrite mxE.
apply/rowP => l; rewrite !mxE; apply: eq_bigr => k _; rewrite !mxE; congr (_ * _).
have -> : row_at K k.+1 = row (rshift 1 k) K by rewrite -row_atE.
by rewrite mxE.
Qed.

Lemma kernel_eval_hybrid_fails dx N (val : 'rV[R]_dx -> 'rV[R]_N) der (kern : seq 'M[R]_(dx + N, o)) (xs : seq (sample R dx o)) :
  (1 < dx)%N -> hybrid_kernel_eval (Pos_gle_hybrid o val der) (Some kern) xs = Err ValueError.
Proof.
move=> d1; rewrite /hybrid_kernel_eval; apply: (@kernel_eval_mismatch R dx o (Pos_gle_hybrid o val der) 0 None) => /=.
by apply/eqP; lia.
Qed.

End Hybrid.

(** Constant kernel, observable with as many components as the position. *)
Section ConstKernel.
Variables (R : realFieldType) (dx : nat).
Lemma kernel_eval_const (b : basis_fns R dx) (kern : seq 'M[R]_(dx, dx)) (xs : seq (sample R dx dx)) s0 :
  exists2 G, kernel_eval (m := Pos_gle_const_kernel dx b) (r := 0) None (Some kern) xs = Ok G &
    forall n i, (n < size kern)%N -> (i < size xs)%N ->
      nth 0 (nth [::] G n) i = (kern`_n)^T /\
      s_v (nth s0 xs i) *m (nth 0 (nth [::] G n) i)^T
      = Ek (Pos_gle_const_kernel dx b) (nth s0 xs i) *m kern`_n.
Proof.
pose m := Pos_gle_const_kernel dx b.
have [G E] : exists G, kernel_eval (m := m) (r := 0) None (Some kern) xs = Ok G.
  by eexists; apply: (@kernel_evalE _ _ _ m 0 None).
exists G => // n i ln li.
by rewrite (@nth_eval _ _ _ m 0 None kern xs G s0 n i E ln li) /= mulmx1 trmxK.
Qed.
End ConstKernel.

Section Friction.
Variables (R : realFieldType) (dx o : nat) (b : basis_fns R dx).

Lemma friction_split (c : 'M[R]_(nbasis b + nderiv b, o)) (xs : seq (sample R dx o)) s0 :
  exists F G, [/\ friction_model_force_eval (Some c) xs = Ok F,
                  friction_force_eval (Some c) xs = Ok G, size F = size xs, size G = size xs
    & forall i, (i < size xs)%N ->
        let s := nth s0 xs i in
        Ef (Pos_gle_with_friction o b) s *m c = F`_i + s_v s *m (nth 0 G i)^T].
Proof.
do 2 eexists; split; [by []|by []|by rewrite size_map|by rewrite size_map|] => i li s.
rewrite !(nth_map s0) // -/s /=.
have -> : row_mx (bval b (s_x s)) (grad_dot b s (s_v s)) *m c
        = row_mx (bval b (s_x s)) (grad_dot b s (s_v s)) *m col_mx (usubmx c) (dsubmx c).
  by rewrite vsubmxK.
rewrite mul_row_col; congr (_ + _); apply/rowP => l; rewrite !mxE.
  apply: eq_bigr => k _; rewrite !mxE; congr (_ * _).
  have -> : row_at c k = row (lshift (nderiv b) k) c by rewrite -row_atE.
  by rewrite mxE.
rewrite (eq_bigr (fun k => \sum_(j < dx) bderiv b (s_x s) k j * s_v s 0 j * c (rshift (nbasis b) k) l)); last first.
  by move=> k _; rewrite !mxE mulr_suml.
rewrite exchange_big /=; apply: eq_bigr => j _; rewrite !mxE mulr_sumr; apply: eq_bigr => k _.
have -> : row_at c (nbasis b + k) = row (rshift (nbasis b) k) c by rewrite -row_atE.
by rewrite mxE mulrA; congr (_ * _); rewrite mulrC.
Qed.

End Friction.
