(** * Properties C15 and C16 at the level of the model class: time stamps, values
    of [compute_corrs_w_noise], comparison with [compute_noise] restarted at every
    window start. *)
From mathcomp Require Import all_ssreflect all_algebra.
From Verif Require Import Base FKernel Model Estimator Quadrature MemorySpec.
From Verif Require Import EstimatorProofs3 NoiseCorr.
Set Implicit Arguments.
Unset Strict Implicit.
Unset Printing Implicit Defensive.
Import GRing.Theory.
Local Open Scope ring_scope.

(** ** C15: the times count from the first sample of the whole trajectory *)
Theorem C15_times (R : realFieldType) (dx o : nat) (m : model_fns R dx o) d
    (proj : sample R dx o -> 'rV[R]_d) (c : 'M[R]_(mf m, o)) kern mt tr xva tk start stop out s0 :
  compute_noise (m := m) proj (Some c) (Some kern) mt tr xva tk start stop = Ok out ->
  n_time out = [seq s_t s - s_t (nth s0 xva 0) | s <- window xva start stop].
Proof. exact: noise_times. Qed.
Print Assumptions C15_times.

(** ** C16: times and values, every supported method *)
Theorem C16_model_trapz (R : realFieldType) (dx o : nat) (m : model_fns R dx o) (d q : nat)
    (proj : sample R dx o -> 'rV[R]_d) (c : 'M[R]_(mf m, o)) times kern mt xva (left : seq 'rV[R]_q) h :
  mt = Some MTrapz \/ mt = Some MSecondTrapz ->
  (1 < size xva)%N -> evenly_sampled h xva -> size left = size xva ->
  size times = size kern -> (size kern <= size xva)%N ->
  exists ts C,
    [/\ compute_corrs_w_noise (m := m) proj (Some c) (Some (times, kern)) mt xva left = Ok (ts, C),
        size ts = (size kern).-1, size C = (size kern).-1,
        forall n, (n < (size kern).-1)%N -> ts`_n = times`_n
      & forall n, (n < (size kern).-1)%N ->
          C`_n = window_average left
            (noise_trapz h [seq s_obs s - Ef m s *m c | s <- xva] kern [seq proj s | s <- xva]) n].
Proof. exact: corrs_noise_trapz. Qed.
Print Assumptions C16_model_trapz.

Theorem C16_model_rect (R : realFieldType) (dx o : nat) (m : model_fns R dx o) (d q : nat)
    (proj : sample R dx o -> 'rV[R]_d) (c : 'M[R]_(mf m, o)) times kern mt xva (left : seq 'rV[R]_q) h :
  mt = None \/ mt = Some MRect \/ mt = Some MSecondRect ->
  (1 < size xva)%N -> evenly_sampled h xva -> size left = size xva ->
  size times = size kern -> (size kern <= size xva)%N ->
  exists C,
    [/\ compute_corrs_w_noise (m := m) proj (Some c) (Some (times, kern)) mt xva left = Ok (times, C),
        size C = size kern
      & forall n, (n < size kern)%N ->
          C`_n = window_average left
            (noise_rect h [seq s_obs s - Ef m s *m c | s <- xva] kern [seq proj s | s <- xva]) n].
Proof. exact: corrs_noise_rect. Qed.
Print Assumptions C16_model_rect.

(** ** C16: agreement with the noise restarted at every start (one component; with
    several, [compute_noise] subtracts another force, finding F10) *)
Theorem C16_trapz_restart_partial (R : realFieldType) (dx : nat) (m : model_fns R dx 1) (d q : nat)
    (proj : sample R dx 1 -> 'rV[R]_d) (c : 'M[R]_(mf m, 1)) times kern mt tr xva (left : seq 'rV[R]_q) h :
  mt = Some MTrapz \/ mt = Some MSecondTrapz ->
  (1 < size xva)%N -> evenly_sampled h xva -> size left = size xva ->
  size times = size kern -> (size kern <= size xva)%N -> (size kern <= tr)%N ->
  exists ts C, compute_corrs_w_noise (m := m) proj (Some c) (Some (times, kern)) mt xva left = Ok (ts, C) /\
    forall n, (0 < n < (size kern).-1)%N ->
      exists2 noises : nat -> noise_out R 1,
        forall t, (t + n < size xva)%N ->
          compute_noise (m := m) proj (Some c) (Some kern) mt tr xva None t None = Ok (noises t)
      & C`_n = window_average left (fun t n => (n_noise (noises t))`_n) n.
Proof. exact: corrs_noise_is_average. Qed.
Print Assumptions C16_trapz_restart_partial.

(** Rectangular methods: [compute_noise] has the extra term [dt E_t K_n], so the
    claim fails (finding F53). *)
Theorem C16_rect_restart_partial (R : realFieldType) (dx : nat) (m : model_fns R dx 1) (d q : nat)
    (proj : sample R dx 1 -> 'rV[R]_d) (c : 'M[R]_(mf m, 1)) times kern mt tr xva (left : seq 'rV[R]_q) h :
  mt = None \/ mt = Some MRect \/ mt = Some MSecondRect ->
  (1 < size xva)%N -> evenly_sampled h xva -> size left = size xva ->
  size times = size kern -> (size kern <= size xva)%N -> (size kern <= tr)%N ->
  exists ts C, compute_corrs_w_noise (m := m) proj (Some c) (Some (times, kern)) mt xva left = Ok (ts, C) /\
    forall n, (0 < n < size kern)%N ->
      exists2 noises : nat -> noise_out R 1,
        forall t, (t + n < size xva)%N ->
          compute_noise (m := m) proj (Some c) (Some kern) mt tr xva None t None = Ok (noises t)
      & C`_n = window_average left
                 (fun t n => (n_noise (noises t))`_n - h *: ([seq proj s | s <- xva]`_t *m kern`_n)) n.
Proof. exact: corrs_noise_rect_average. Qed.
Print Assumptions C16_rect_restart_partial.

Theorem C16_rect_restart_refuted (R : realFieldType) :
  exists (m : model_fns R 1 1) c times kern xva left ts C n (noises : nat -> noise_out R 1),
    [/\ [/\ size times = size kern, (size kern <= size xva)%N & size left = size xva],
        evenly_sampled 1 xva,
        compute_corrs_w_noise (m := m) (q := 1) (Ek m) (Some c) (Some (times, kern)) (Some MRect) xva left = Ok (ts, C),
        (n < size kern)%N /\
        forall t, (t + n < size xva)%N ->
          compute_noise (m := m) (Ek m) (Some c) (Some kern) (Some MRect) (size kern) xva None t None = Ok (noises t)
      & C`_n <> window_average left (fun t n => (n_noise (noises t))`_n) n].
Proof. exact: corrs_noise_rect_refuted. Qed.
Print Assumptions C16_rect_restart_refuted.

Example C16_model_example (R : realFieldType) :
  (1 < size (still_traj R))%N /\ evenly_sampled 1 (still_traj R).
Proof. by split=> //; exact: still_even. Qed.
