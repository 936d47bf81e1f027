(** * Properties C09, C11, C15, C20, C21, C22, C28: the estimator. *)
From mathcomp Require Import all_ssreflect all_algebra.
From Verif Require Import Base FKernel Model Estimator Parallel Quadrature FKernelSpec EstimatorSpec Mx11.
From Verif Require Import EstimatorProofs EstimatorProofs2 EstimatorProofs3 ParallelProofs.
Set Implicit Arguments.
Unset Strict Implicit.
Unset Printing Implicit Defensive.
Import GRing.Theory Num.Theory.
Local Open Scope ring_scope.

(** ** C09 *)
Theorem C09_kernel_lengths (R : realFieldType) (k o : nat) (dt : R) N (c : corrs_data R k o) mt k0 :
  (4 <= N)%N -> corrs_sized N c -> mt <> MOther ->
  (exists times ker,
     [/\ compute_kernel dt N c mt k0 = Ok (times, ker), size times = size ker,
         (0 < size ker)%N
       & forall i, (i < size ker)%N -> times`_i = (i * kernel_stride mt)%:R * dt])
  \/ compute_kernel dt N c mt k0 = Err Singular.
Proof. exact: kernel_lengths. Qed.
Print Assumptions C09_kernel_lengths.

(** The bound 4 is sharp: the Richardson combination fails for shorter data. *)
Theorem C09_richardson_short (R : realFieldType) (k o : nat) (dt : R) N (c : corrs_data R k o) k0 :
  (N <= 3)%N -> corrs_sized N c ->
  exists e, compute_kernel dt N c MRichardson k0 = Err e.
Proof. exact: richardson_short. Qed.
Print Assumptions C09_richardson_short.

Example C09_example (R : realFieldType) :
  corrs_sized 7 (Corrs (nseq 7 (1%:M : 'M[R]_2)) (nseq 7 (0 : 'M[R]_(2, 3))) (nseq 7 0)
                       (Some (nseq 7 0))).
Proof. by []. Qed.

(** ** C11 (false: the kernel is smoothed after the inversion, finding F9) *)
Theorem C11_check_inversion_refuted :
  exists (dt : rat) (c : corrs_data [realFieldType of rat] 1 1) (k0 : option 'M[rat]_1) times ker r n,
    [/\ compute_kernel dt 4 c MTrapz k0 = Ok (times, ker),
        check_volterra_inversion dt c ker = Ok r, (0 < n < size ker)%N & r`_n <> 0].
Proof. exact: check_inversion_refuted. Qed.
Print Assumptions C11_check_inversion_refuted.

(** What is reported: the trapezoid rule applied to a quarter of the second
    differences of the kernel before smoothing. *)
Theorem C11_check_inversion_partial (R : realFieldType) (k o : nat) (dt : R) N
    (c : corrs_data R k o) k0 times ker r :
  compute_kernel dt N c MTrapz k0 = Ok (times, ker) ->
  size (bkbk c) = N -> size (bkdx c) = N -> (2 <= N)%N ->
  check_volterra_inversion dt c ker = Ok r ->
  exists2 raw, (exists k1, kernel_first_kind_trapz dt k1 (bkbk c) (bkdx c) = Ok raw) &
    forall n, (0 < n < size ker)%N ->
      r`_n = map_mx Num.Def.normr
        (- trapz_rule dt (fun j => (bkbk c)`_(n - j) *m smoothing_defect raw j) n).
Proof. exact: smoothed_residual. Qed.
Print Assumptions C11_check_inversion_partial.

(** The property itself when the kernel before smoothing is affine in time. *)
Theorem C11_affine_partial (R : realFieldType) (k o : nat) (dt : R) N
    (c : corrs_data R k o) k0 times ker r :
  compute_kernel dt N c MTrapz k0 = Ok (times, ker) ->
  size (bkbk c) = N -> size (bkdx c) = N -> (2 <= N)%N ->
  check_volterra_inversion dt c ker = Ok r ->
  (forall k1 raw, kernel_first_kind_trapz dt k1 (bkbk c) (bkdx c) = Ok raw ->
     exists a b, forall j, (j < N)%N -> raw`_j = a + j%:R *: b) ->
  forall n, (0 < n < size ker)%N -> r`_n = 0.
Proof. exact: affine_residual. Qed.
Print Assumptions C11_affine_partial.

Example C11_example :
  exists times, compute_kernel 2%:R 4 chk_c MTrapz (Some (c1 0)) = Ok (times, c1 0 :: smooth chk_raw).
Proof. exact: chk_kernel_ok. Qed.

(** ** C15 (false from two components on: the force is summed over them, finding F10) *)
Theorem C15_noise_refuted (R : realFieldType) :
  exists (dx o : nat) (m : model_fns R dx o) c kern mt xva out f i,
    [/\ compute_noise (m := m) (Ek m) (Some c) (Some kern) mt (size kern) xva None 0 None = Ok out,
        force_eval (m := m) (Some c) xva = Ok f, (i < size xva)%N
      & (n_obs out)`_i <> (n_noise out)`_i + f`_i + (n_memory out)`_i].
Proof. exact: noise_refuted. Qed.
Print Assumptions C15_noise_refuted.

Theorem C15_noise_partial (R : realFieldType) (dx o : nat) (m : model_fns R dx o) d
    (proj : sample R dx o -> 'rV[R]_d) (c : 'M[R]_(mf m, o)) kern mt tr xva tk start stop :
  (1 < size (window xva start stop))%N -> (0 < size (take (odflt tr tk) kern))%N ->
  (match mt with None | Some MRect | Some MSecondRect | Some MTrapz | Some MSecondTrapz => true | _ => false end) ->
  exists2 out, compute_noise (m := m) proj (Some c) (Some kern) mt tr xva tk start stop = Ok out &
    let w := window xva start stop in
    [/\ [/\ size (n_noise out) = size w, size (n_memory out) = size w & size (n_force out) = size w],
        n_obs out = [seq s_obs s | s <- w], (n_memory out)`_0 = 0,
        n_force out = [seq \sum_(l < o) (Ef m s *m c) 0 l | s <- w]
      & forall i, (i < size w)%N ->
        (n_obs out)`_i = (n_noise out)`_i + const_mx (n_force out)`_i + (n_memory out)`_i].
Proof. exact: noise_total. Qed.
Print Assumptions C15_noise_partial.

(** With one component that force is the one returned by [force_eval]. *)
Theorem C15_one_component_partial (R : realFieldType) dx (m : model_fns R dx 1) d
    (proj : sample R dx 1 -> 'rV[R]_d) (c : 'M[R]_(mf m, 1)) kern mt tr xva tk :
  (1 < size xva)%N -> (0 < size (take (odflt tr tk) kern))%N ->
  (match mt with None | Some MRect | Some MSecondRect | Some MTrapz | Some MSecondTrapz => true | _ => false end) ->
  exists out f,
    [/\ compute_noise (m := m) proj (Some c) (Some kern) mt tr xva tk 0 None = Ok out,
        force_eval (m := m) (Some c) xva = Ok f, (n_memory out)`_0 = 0
      & forall i, (i < size xva)%N ->
          (nth 0 [seq s_obs s | s <- xva] i) = (n_noise out)`_i + f`_i + (n_memory out)`_i].
Proof. exact: noise_one. Qed.
Print Assumptions C15_one_component_partial.

Theorem C15_midpoint_rejected (R : realFieldType) (dx o : nat) (m : model_fns R dx o) d
    (proj : sample R dx o -> 'rV[R]_d) (c : 'M[R]_(mf m, o)) kern mt tr xva tk start stop :
  (1 < size (window xva start stop))%N ->
  (match mt with None | Some MRect | Some MSecondRect | Some MTrapz | Some MSecondTrapz => false | _ => true end) ->
  compute_noise (m := m) proj (Some c) (Some kern) mt tr xva tk start stop = Err ValueError.
Proof. exact: noise_midpoint. Qed.
Print Assumptions C15_midpoint_rejected.

Example C15_example (R : realFieldType) : (1 < size (window (noise_traj R) 0 None))%N.
Proof. by []. Qed.

(** ** C20 *)
Theorem C20_mean_force_least_squares (R : realFieldType) (dx o : nat) (m : model_fns R dx o) trajs c G :
  compute_mean_force m trajs = Ok (c, G) ->
  [/\ residual_orthogonal (Ef m) s_obs c (flatten trajs),
      forall c', sq_residual (Ef m) s_obs c (flatten trajs) <= sq_residual (Ef m) s_obs c' (flatten trajs)
    & forall c', sq_residual (Ef m) s_obs c' (flatten trajs) = sq_residual (Ef m) s_obs c (flatten trajs) -> c' = c].
Proof. exact: mean_force_lsq. Qed.
Print Assumptions C20_mean_force_least_squares.

Theorem C20_mean_force_recovers (R : realFieldType) (dx o : nat) (m : model_fns R dx o) trajs c G c0 :
  compute_mean_force m trajs = Ok (c, G) ->
  (forall s, List.In s (flatten trajs) -> s_obs s = Ef m s *m c0) -> c = c0.
Proof. exact: mean_force_recovers. Qed.
Print Assumptions C20_mean_force_recovers.

Theorem C20_mean_force_success (R : realFieldType) (dx o : nat) (m : model_fns R dx o) trajs :
  (exists r, compute_mean_force m trajs = Ok r) <->
  (all_nonempty trajs /\ mean_product (Ef m) (Ef m) (flatten trajs) \in unitmx).
Proof. exact: mean_force_success. Qed.
Print Assumptions C20_mean_force_success.

Example C20_example (R : realFieldType) :
  exists r, compute_mean_force (Pos_gle 1 (lin1 R)) (two_trajs R) = Ok r.
Proof. exact: two_trajs_ok. Qed.

(** ** C21 *)
Theorem C21_pooled_products (R : realFieldType) (dx o p q : nat)
    (e : sample R dx o -> 'rV[R]_p) (f : sample R dx o -> 'rV[R]_q) trajs :
  all_nonempty trajs -> avg_loop (tdot e f) trajs = Ok (mean_product e f (flatten trajs)).
Proof. exact: tdot_pooled. Qed.
Print Assumptions C21_pooled_products.

Theorem C21_pooled_mean (R : realFieldType) (dx o p : nat) (e : sample R dx o -> 'rV[R]_p) trajs :
  all_nonempty trajs -> compute_basis_mean e trajs = Ok (sample_mean e (flatten trajs)).
Proof. exact: basis_mean_pooled. Qed.
Print Assumptions C21_pooled_mean.

Theorem C21_cut_and_order (R : realFieldType) (dx o p : nat) (e : sample R dx o -> 'rV[R]_p) trajs trajs' :
  all_nonempty trajs -> all_nonempty trajs' -> same_samples (flatten trajs) (flatten trajs') ->
  [/\ compute_gram e trajs = compute_gram e trajs',
      compute_basis_mean e trajs = compute_basis_mean e trajs',
      compute_effective_mass trajs = compute_effective_mass trajs'
    & forall m : model_fns R dx o, compute_mean_force m trajs = compute_mean_force m trajs'].
Proof. exact: gram_perm. Qed.
Print Assumptions C21_cut_and_order.

Theorem C21_degenerate_fails (R : realFieldType) (dx o p q : nat)
    (e : sample R dx o -> 'rV[R]_p) (f : sample R dx o -> 'rV[R]_q) trajs :
  ~~ all_nonempty trajs -> exists x, avg_loop (tdot e f) trajs = Err x.
Proof. exact: tdot_fails. Qed.
Print Assumptions C21_degenerate_fails.

Example C21_example (R : realFieldType) : all_nonempty (two_trajs R).
Proof. by []. Qed.

(** ** C22 *)
Theorem C22_parallel_is_serial (R : realFieldType) (traj V : Type)
    (scale : R -> V -> V) (add : V -> V -> res V)
    (len : traj -> nat) (func : nat -> traj -> res V) trajs n_jobs p :
  steps n_jobs (traj_task len func trajs) (size trajs) (pool0 V) p ->
  terminal (size trajs) p ->
  loop_over_trajs_parallel scale add len trajs (size trajs) p
  = loop_over_trajs scale add len func trajs.
Proof. exact: parallel_serial. Qed.
Print Assumptions C22_parallel_is_serial.

Theorem C22_no_deadlock (V : Type) n_jobs (task : nat -> res V) n p :
  (0 < n_jobs)%N -> steps n_jobs task n (pool0 V) p ->
  terminal n p \/ exists q, step n_jobs task n p q.
Proof. exact: pool_progress. Qed.
Print Assumptions C22_no_deadlock.

Theorem C22_bounded (V : Type) n_jobs (task : nat -> res V) n k q :
  run n_jobs task n k (pool0 V) q -> (k <= 2 * n)%N.
Proof. exact: run_bounded0. Qed.
Print Assumptions C22_bounded.

Theorem C22_workers (V : Type) n_jobs (task : nat -> res V) n p :
  steps n_jobs task n (pool0 V) p ->
  [/\ uniq (running p), (size (running p) <= n_jobs)%N
    & (size (running p) < n_jobs)%N -> (next p < n)%N ->
      exists2 q, step n_jobs task n p q & running q = next p :: running p].
Proof. exact: pool_width. Qed.
Print Assumptions C22_workers.

(** Two workers finishing out of order. *)
Example C22_example :
  exists p, steps 2 (fun i => Ok i) 2 (pool0 nat) p /\ terminal 2 p.
Proof.
pose T := fun i : nat => Ok i.
have s1 := @Dispatch nat 2 T 2 (pool0 nat) isT isT.
have s2 := @Dispatch nat 2 T 2 (Pool 1 [:: 0%N] (slots (pool0 nat))) isT isT.
have s3 := @Finish nat 2 T 2 (Pool 2 [:: 1%N; 0%N] (slots (pool0 nat))) 0%N isT.
have s4 := @Finish nat 2 T 2 (Pool 2 [:: 1%N] (fun j => if j == 0%N then Some (T 0%N) else None)) 1%N isT.
by eexists; split; first exact: (Step (Step (Step (Step (Done _ _ _ _) s1) s2) s3) s4).
Qed.

(** ** C28 (false when trajectories start at different times, finding F11) *)
Theorem C28_trunc_ind_refuted (R : realFieldType) :
  exists (trunc : R) (trajs : seq (seq (sample R 1 1))) N t,
    [/\ forall u, List.In u trajs -> sorted (fun a b => (s_t a < s_t b)%R) u,
        compute_trunc_ind trunc trajs = Ok N, List.In t trajs & (size t < N)%N].
Proof. exact: trunc_ind_refuted. Qed.
Print Assumptions C28_trunc_ind_refuted.

Theorem C28_trunc_ind_partial (R : realFieldType) (dx o : nat) (t0 dt trunc : R)
    (trajs : seq (seq (sample R dx o))) N :
  0 < dt -> (forall t, List.In t trajs -> on_grid t0 dt t) ->
  compute_trunc_ind trunc trajs = Ok N ->
  forall t, List.In t trajs -> (N <= size t)%N.
Proof. exact: trunc_ind_bound. Qed.
Print Assumptions C28_trunc_ind_partial.

Theorem C28_trunc_ind_total (R : realFieldType) (dx o : nat) (trunc : R)
    (trajs : seq (seq (sample R dx o))) :
  (0 < size trajs)%N -> (forall t, List.In t trajs -> (0 < size t)%N) ->
  exists N, compute_trunc_ind trunc trajs = Ok N.
Proof. exact: trunc_ind_total. Qed.
Print Assumptions C28_trunc_ind_total.

Example C28_example (R : realFieldType) : on_grid 1 2%:R [:: at_t (1 : R); at_t 3%:R].
Proof.
by move=> [|[|i]] s //= _; rewrite /s_t /= ?mul0r ?addr0 // mul1r -(natrD R 1 2).
Qed.
