(** * Properties C62, C63: evaluating the fitted kernel, force and friction at given
    points gives back the terms of the fitted equation. *)
From mathcomp Require Import all_ssreflect all_algebra.
From Verif Require Import Base Model Estimator Evaluate EvaluateProofs.
Set Implicit Arguments.
Unset Strict Implicit.
Unset Printing Implicit Defensive.
Import GRing.Theory.
Local Open Scope ring_scope.

(** ** C62 (the hybrid class fails from dimension two on, finding F54) *)
Theorem C62_position_velocity_partial (R : realFieldType) (dx o : nat) (b : basis_fns R dx) r
    (P : option 'M[R]_(r, nderiv b)) (kern : seq 'M[R]_(if P is Some _ then r else nderiv b, o))
    (xs : seq (sample R dx o)) s0 :
  exists2 G, kernel_eval (m := Pos_gle o b) P (Some kern) xs = Ok G /\
             kernel_eval (m := Pos_gle_with_friction o b) P (Some kern) xs = Ok G &
    [/\ size G = size kern, forall n, (n < size kern)%N -> size (nth [::] G n) = size xs
      & forall n i, (n < size kern)%N -> (i < size xs)%N ->
          s_v (nth s0 xs i) *m (nth 0 (nth [::] G n) i)^T
          = projected (m := Pos_gle o b) P (nth s0 xs i) *m kern`_n].
Proof.
have [G E H] := kernel_eval_pos_gle kern xs s0.
by exists G => //; split=> //; rewrite -E; apply: kernel_eval_friction.
Qed.
Print Assumptions C62_position_velocity_partial.

Theorem C62_position_only_partial (R : realFieldType) (dx o N : nat) (val : 'rV[R]_dx -> 'rV[R]_N) der rp r
    (P : option 'M[R]_(r, N)) (kern : seq 'M[R]_(if P is Some _ then r else N, o))
    (xs : seq (sample R dx o)) s0 :
  exists2 G, kernel_eval (m := Pos_gle_overdamped o val der rp) P (Some kern) xs = Ok G &
    [/\ size G = size kern, forall n, (n < size kern)%N -> size (nth [::] G n) = size xs
      & forall n i (j : 'I_dx), (n < size kern)%N -> (i < size xs)%N ->
          (col j (nth 0 (nth [::] G n) i))^T
          = projected (m := Pos_gle_overdamped o val der rp) P (nth s0 xs i) *m kern`_n].
Proof. exact: kernel_eval_overdamped. Qed.
Print Assumptions C62_position_only_partial.

Theorem C62_const_kernel_partial (R : realFieldType) (dx : nat) (b : basis_fns R dx)
    (kern : seq 'M[R]_(dx, dx)) (xs : seq (sample R dx dx)) s0 :
  exists2 G, kernel_eval (m := Pos_gle_const_kernel dx b) (r := 0) None (Some kern) xs = Ok G &
    forall n i, (n < size kern)%N -> (i < size xs)%N ->
      nth 0 (nth [::] G n) i = (kern`_n)^T /\
      s_v (nth s0 xs i) *m (nth 0 (nth [::] G n) i)^T
      = Ek (Pos_gle_const_kernel dx b) (nth s0 xs i) *m kern`_n.
Proof. exact: kernel_eval_const. Qed.
Print Assumptions C62_const_kernel_partial.

Theorem C62_hybrid_partial (R : realFieldType) (o N : nat) (val : 'rV[R]_1 -> 'rV[R]_N) der
    (kern : seq 'M[R]_(1 + N, o)) (xs : seq (sample R 1 o)) s0 :
  exists C G, [/\ get_const_kernel_part (Some kern) = Ok C,
    hybrid_kernel_eval (Pos_gle_hybrid o val der) (Some kern) xs = Ok G
    & forall n i, (n < size kern)%N -> (i < size xs)%N ->
        let s := nth s0 xs i in
        Ek (Pos_gle_hybrid o val der) s *m kern`_n
        = s_v s 0 0 *: C`_n + (nth 0 (nth [::] G n) i)^T].
Proof. exact: kernel_eval_hybrid. Qed.
Print Assumptions C62_hybrid_partial.

(** From dimension two on, every evaluation of the hybrid kernel raises. *)
Theorem C62_hybrid_dimension_partial (R : realFieldType) (dx o N : nat) (val : 'rV[R]_dx -> 'rV[R]_N) der
    (kern : seq 'M[R]_(dx + N, o)) (xs : seq (sample R dx o)) :
  (1 < dx)%N -> hybrid_kernel_eval (Pos_gle_hybrid o val der) (Some kern) xs = Err ValueError.
Proof. exact: kernel_eval_hybrid_fails. Qed.
Print Assumptions C62_hybrid_dimension_partial.

Theorem C62_hybrid_refuted (R : realFieldType) :
  exists dx o N (val : 'rV[R]_dx -> 'rV[R]_N) der (kern : seq 'M[R]_(dx + N, o)) xs,
    [/\ (0 < size kern)%N, (0 < size xs)%N
      & hybrid_kernel_eval (Pos_gle_hybrid o val der) (Some kern) xs = Err ValueError].
Proof.
exists 2%N, 2%N, 2%N, id, (fun=> 1%:M), [:: 0], [:: (0, 0, 0, 0, 0)]; split; [by []|by []|].
exact: kernel_eval_hybrid_fails.
Qed.
Print Assumptions C62_hybrid_refuted.

(** Evaluating with a kernel of another number of rows raises. *)
Theorem C62_wrong_rows (R : realFieldType) (dx o : nat) (m : model_fns R dx o) r
    (P : option 'M[R]_(r, mq m)) p (kern : seq 'M[R]_(p, o)) xs :
  p != (if P is Some _ then r else mq m) -> kernel_eval P (Some kern) xs = Err ValueError.
Proof. exact: kernel_eval_mismatch. Qed.
Print Assumptions C62_wrong_rows.

Example C62_example (R : realFieldType) :
  exists G, kernel_eval (m := Pos_gle_const_kernel 1 (Basis (dx := 1) (nderiv := 1) false (fun x : 'rV[R]_1 => x) (fun=> 1%:M) (fun _ _ => 0)))
    (r := 0) None (Some [:: 2%:R%:M : 'M[R]_1; 1%:M]) [:: (0, 0, 1%:M, 0, 0) : sample R 1 1] = Ok G
  /\ nth 0 (nth [::] G 0) 0 = 2%:R%:M.
Proof.
have [G E H] := C62_const_kernel_partial (Basis (dx := 1) (nderiv := 1) false (fun x : 'rV[R]_1 => x) (fun=> 1%:M) (fun _ _ => 0))
  [:: 2%:R%:M : 'M[R]_1; 1%:M] [:: (0, 0, 1%:M, 0, 0) : sample R 1 1] (0, 0, 1%:M, 0, 0).
by exists G; split=> //; have [|| -> _] := H 0%N 0%N; rewrite ?tr_scalar_mx.
Qed.

(** ** C63 *)
Theorem C63_friction_split (R : realFieldType) (dx o : nat) (b : basis_fns R dx)
    (c : 'M[R]_(nbasis b + nderiv b, o)) (xs : seq (sample R dx o)) s0 :
  exists F G, [/\ friction_model_force_eval (Some c) xs = Ok F,
                  friction_force_eval (Some c) xs = Ok G, size F = size xs, size G = size xs
    & forall i, (i < size xs)%N ->
        let s := nth s0 xs i in
        Ef (Pos_gle_with_friction o b) s *m c = F`_i + s_v s *m (nth 0 G i)^T].
Proof. exact: friction_split. Qed.
Print Assumptions C63_friction_split.

Example C63_example (R : realFieldType) :
  let b := Basis (dx := 1) (nderiv := 1) false (fun x : 'rV[R]_1 => x) (fun=> 1%:M) (fun _ _ => 0) in
  exists F G, [/\ friction_model_force_eval (b := b) (Some (col_mx 2%:R%:M 3%:R%:M : 'M[R]_(1 + 1, 1)))
                    [:: (0, 1%:M, 1%:M, 0, 0) : sample R 1 1] = Ok F,
                  friction_force_eval (b := b) (Some (col_mx 2%:R%:M 3%:R%:M : 'M[R]_(1 + 1, 1)))
                    [:: (0, 1%:M, 1%:M, 0, 0) : sample R 1 1] = Ok G, size F = 1%N & size G = 1%N].
Proof.
move=> b; have [F [G [E1 E2 s1 s2 _]]] := @C63_friction_split R 1 1 b (col_mx 2%:R%:M 3%:R%:M)
  [:: (0, 1%:M, 1%:M, 0, 0)] (0, 1%:M, 1%:M, 0, 0).
by exists F, G.
Qed.
