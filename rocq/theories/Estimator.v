(** * Model of /repo/VolterraBasis/gle_estimation.py and of the numerical methods of
    [ModelBase] (models.py:138-207). *)
From mathcomp Require Import all_ssreflect all_algebra.
From Verif Require Import Base FKernel Model.
Set Implicit Arguments.
Unset Strict Implicit.
Unset Printing Implicit Defensive.
Import GRing.Theory Num.Theory.
Local Open Scope ring_scope.

(** gle_estimation.py:13-18 *)
Definition solve_linear (R : realFieldType) p q (G : 'M[R]_p) (b : 'M[R]_(p, q)) : res 'M[R]_(p, q) :=
  let! Gi := finv G in Ok (Gi *m b).

Section Loop.
Variables (R : realFieldType) (traj V : Type).
Variables (scale : R -> V -> V) (add : V -> V -> res V).

(** gle_estimation.py:165-176.  [weights] are the trajectory lengths.  The
    accumulator starts at the scalar [0.0], so the first addition only copies;
    [array_res[0]] fails for an empty list. *)
Definition combine (weights : seq nat) (arr : seq V) : res V :=
  let W := (sumn weights)%:R in
  match [seq scale ((p.1)%:R / W) p.2 | p <- zip weights arr] with
  | [::] => Err OutOfBounds
  | v :: vs => foldl (fun acc u => let! acc := acc in add acc u) (Ok v) vs
  end.

Definition loop_over_trajs (len : traj -> nat) (func : nat -> traj -> res V) (trajs : seq traj) : res V :=
  let weights := [seq len t | t <- trajs] in
  let! arr := mapM (fun p => func p.1 p.2) (zip weights trajs) in
  combine weights arr.

End Loop.

(** Total addition of arrays of one shape. *)
Definition addT (V : zmodType) (x y : V) : res V := Ok (x + y).

(** xarray addition along [time_trunc]: sizes must agree. *)
Definition addseq (V : zmodType) (x y : seq V) : res (seq V) :=
  if size x == size y then Ok (mkseq (fun i => x`_i + y`_i) (size x)) else Err ShapeMismatch.

Definition scaleseq (R : ringType) (V : lmodType R) (c : R) (x : seq V) : seq V :=
  [seq c *: v | v <- x].

Section Averages.
Variables (R : realFieldType) (dx o : nat).
Local Notation smp := (sample R dx o).
Implicit Types (xva : seq smp) (trajs : seq (seq smp)).

Definition avg_loop (V : lmodType R) (func : nat -> seq smp -> res V) trajs : res V :=
  loop_over_trajs (fun c (v : V) => c *: v) (@addT V) size func trajs.

(** [xr.dot(e, f) / weight] over the time axis: numpy divides by zero for an empty
    trajectory. *)
Definition tdot p q (e : smp -> 'rV[R]_p) (f : smp -> 'rV[R]_q) (weight : nat) xva : res 'M[R]_(p, q) :=
  let! _ := guard (0 < weight)%N ZeroDivision in
  Ok (weight%:R^-1 *: \sum_(s <- xva) (e s)^T *m f s).

(** gle_estimation.py:409-415 *)
Definition compute_gram p (e : smp -> 'rV[R]_p) trajs := avg_loop (tdot e e) trajs.

(** Gram matrix of the kernel basis, gle_estimation.py:206-214, 409-415: [compute_for="kernel"]
    arrays have a [dim_x] axis, over which [xr.dot] sums as well. *)
Definition kdot q x (kb : smp -> 'M[R]_(q, x)) (weight : nat) xva : res 'M[R]_q :=
  let! _ := guard (0 < weight)%N ZeroDivision in
  Ok (weight%:R^-1 *: \sum_(s <- xva) kb s *m (kb s)^T).
Definition compute_gram_kernel q x (kb : smp -> 'M[R]_(q, x)) trajs := avg_loop (kdot kb) trajs.

(** Position-dependent inverse mass, gle_estimation.py:230-238, 417-425: the first axis
    of the velocities is contracted with the [dim_x] axis of the basis. *)
Definition vvdot q (kb : smp -> 'M[R]_(q, dx)) (weight : nat) xva : res 'M[R]_(q, dx) :=
  let! _ := guard (0 < weight)%N ZeroDivision in
  Ok (weight%:R^-1 *: \sum_(s <- xva) kb s *m ((s_v s)^T *m s_v s)).
Definition compute_pos_effective_mass q (kb : smp -> 'M[R]_(q, dx)) trajs : res 'M[R]_(q, dx) :=
  let! pos_inv_mass := avg_loop (vvdot kb) trajs in
  let! avg_gram := avg_loop (kdot kb) trajs in
  solve_linear avg_gram pos_inv_mass.

(** gle_estimation.py:401-406 *)
Definition compute_basis_mean p (e : smp -> 'rV[R]_p) trajs :=
  avg_loop (fun _ xva =>
    let! _ := guard (0 < size xva)%N ZeroDivision in
    Ok ((size xva)%:R^-1 *: \sum_(s <- xva) e s)) trajs.

(** gle_estimation.py:217-228, 418-422 *)
Definition compute_effective_mass trajs : res 'M[R]_dx :=
  let! v2 := avg_loop (tdot s_v s_v) trajs in finv v2.

(** gle_estimation.py:240-249, 380-391: both arrays come from one loop; returned as
    (force_coeff, gram_force). *)
Definition compute_mean_force (m : model_fns R dx o) trajs : res ('M[R]_(mf m, o) * 'M[R]_(mf m)) :=
  let! avg_disp := avg_loop (tdot (Ef m) s_obs) trajs in
  let! avg_gram := avg_loop (tdot (Ef m) (Ef m)) trajs in
  let! c := solve_linear avg_gram avg_disp in
  Ok (c, avg_gram).

(** [ortho_xva]: observable minus mean force (gle_estimation.py:448). *)
Definition ortho (m : model_fns R dx o) (c : 'M[R]_(mf m, o)) (s : smp) : 'rV[R]_o :=
  s_obs s - Ef m s *m c.

(** gle_estimation.py:127-138: number of times of the first trajectory not above
    [min(trunc, smallest last time)]. *)
Definition last_time xva : res R :=
  if xva is s :: xva' then Ok (s_t (last s xva')) else Err OutOfBounds.

Definition compute_trunc_ind (trunc : R) trajs : res nat :=
  let! lasts := mapM last_time trajs in
  match lasts, trajs with
  | l :: ls, xva0 :: _ =>
      let smallest := foldl Num.min l ls in
      let trunc := if smallest < trunc then smallest else trunc in
      Ok (count (fun s => s_t s <= trunc) xva0)
  | _, _ => Err ValueError
  end.

End Averages.

(** ** Kernel (gle_estimation.py:290-348) *)
Inductive volterra_method :=
  | MRect | MMidpoint | MRichardson | MTrapz | MSecondRect | MSecondTrapz | MOther.

Section Kernel.
Variables (R : realFieldType) (k o : nat).

(** The four arrays stored by [compute_corrs]; [dotbkbk = None] stands for the
    placeholder [np.array([[0.0]])] left by [second_order_method=False], on which
    [.to_numpy()] fails. *)
Record corrs_data := Corrs {
  bkbk : seq 'M[R]_k;
  bkdx : seq 'M[R]_(k, o);
  dotbkdx : seq 'M[R]_(k, o);
  dotbkbk : option (seq 'M[R]_k) }.

(** [a[::3]] along the time axis. *)
Definition stride3 (V : zmodType) (a : seq V) : seq V :=
  mkseq (fun i => a`_(3 * i)) ((size a + 2) %/ 3).

(** [(9 * ker[::3][:len3] - ker_3) / 8] *)
Definition richardson (ker ker3 : seq 'M[R]_(k, o)) : res (seq 'M[R]_(k, o)) :=
  let a := take (size ker3) (stride3 ker) in
  if size a == size ker3 then
    Ok (mkseq (fun i => 8%:R^-1 *: (9%:R *: a`_i - ker3`_i)) (size a))
  else Err ShapeMismatch.

(** [0.5 * (ker[1:-1] + 0.5 * (ker[:-2] + ker[2:]))] with [k0] inserted in front. *)
Definition smooth (ker : seq 'M[R]_(k, o)) : seq 'M[R]_(k, o) :=
  mkseq (fun i => 2^-1 *: (ker`_i.+1 + 2^-1 *: (ker`_i + ker`_i.+2))) (size ker - 2).

(** Python slice [a[:-stop:step]] *)
Definition slice_back (stop step : nat) (V : zmodType) (a : seq V) : seq V :=
  mkseq (fun i => a`_(step * i)) (slice_len 0 (size a - stop) step).

Definition needs_k0 (mt : volterra_method) : bool :=
  match mt with MTrapz | MSecondRect | MSecondTrapz => true | _ => false end.

(** Value of [k0] when the method uses it. *)
Definition initial_k0 (c : corrs_data) (k0 : option 'M[R]_(k, o)) : res 'M[R]_(k, o) :=
  if k0 is Some k0 then Ok k0 else
  let! b0 := rd (bkbk c) 0 in
  let! d0 := rd (dotbkdx c) 0 in
  solve_linear b0 d0.

Definition compute_kernel (dt : R) (trunc_ind : nat) (c : corrs_data) (mt : volterra_method)
    (k0 : option 'M[R]_(k, o)) : res (seq R * seq 'M[R]_(k, o)) :=
  let time_ker := mkseq (fun i => i%:R * dt) trunc_ind in
  let! _ := guard (0 < trunc_ind)%N OutOfBounds in
  let! k0 := (if needs_k0 mt then initial_k0 c k0 else Ok 0) in
  let! tk :=
    match mt with
    | MRect =>
        let! ker := kernel_first_kind_rect dt (bkbk c) (bkdx c) in Ok (time_ker, ker)
    | MMidpoint =>
        let! ker := kernel_first_kind_midpoint dt (bkbk c) (bkdx c) in
        Ok (slice_back 1 2 time_ker, ker)
    | MRichardson =>
        let! ker := kernel_first_kind_midpoint dt (bkbk c) (bkdx c) in
        let! ker3 := kernel_first_kind_midpoint (3%:R * dt) (stride3 (bkbk c)) (stride3 (bkdx c)) in
        let! ker := richardson ker ker3 in
        Ok (slice_back 3 6 time_ker, ker)
    | MTrapz =>
        let! ker := kernel_first_kind_trapz dt k0 (bkbk c) (bkdx c) in
        Ok (slice_back 1 1 time_ker, k0 :: smooth ker)
    | MSecondRect =>
        let! b0 := rd (bkbk c) 0 in
        if dotbkbk c is Some dbb then
          let! ker := kernel_second_kind_rect dt k0 b0 dbb (dotbkdx c) in Ok (time_ker, ker)
        else Err AttributeError
    | MSecondTrapz =>
        let! b0 := rd (bkbk c) 0 in
        if dotbkbk c is Some dbb then
          let! ker := kernel_second_kind_trapz dt k0 b0 dbb (dotbkdx c) in Ok (time_ker, ker)
        else Err AttributeError
    | MOther => Err Documented
    end in
  (* building the DataArray: one time stamp per sample *)
  let! _ := guard (size tk.1 == size tk.2) ValueError in
  Ok tk.

(** gle_estimation.py:350-371.  [scipy.integrate.trapezoid] of the samples
    [B[n-i] K[i]], [i = 0..n]. *)
Definition trapezoid (V : lmodType R) (dt : R) (f : seq V) : V :=
  \sum_(i < (size f).-1) (2^-1 * dt) *: (f`_i.+1 + f`_i).

Definition check_volterra_inversion (dt : R) (c : corrs_data) (ker : seq 'M[R]_(k, o))
    : res (seq 'M[R]_(k, o)) :=
  let! res_int := for_ 0 (size ker) (fun n r =>
      let Bs := rev (take n.+1 (bkbk c)) in
      let Ks := take n.+1 ker in
      let! _ := guard (size Bs == size Ks) ShapeMismatch in
      wr r n (-1 *: trapezoid dt [seq p.1 *m p.2 | p <- zip Bs Ks]))
    (nseq (size (bkdx c)) 0) in
  Ok (mkseq (fun n => map_mx Num.Def.normr (res_int`_n - (bkdx c)`_n)) (size (bkdx c))).

End Kernel.

(** ** Noise (models.py:138-207) *)
Section Noise.
Variables (R : realFieldType) (dx o : nat) (m : model_fns R dx o).
Local Notation smp := (sample R dx o).

(** Optional rank projection: [P_range] is [(r, mk)]. *)
Definition projected (r : nat) (P : option 'M[R]_(r, mk m)) (s : smp) :
  'rV[R]_(if P is Some _ then r else mk m) :=
  match P return 'rV[R]_(if P is Some _ then r else mk m) with
  | Some P => Ek m s *m P^T
  | None => Ek m s
  end.

(** Which memory routine is used for a stored method ([None]: never set). *)
Definition memory_for (mt : option volterra_method) d (dt : R) (K : seq 'M[R]_(d, o)) (E : seq 'rV[R]_d)
    : res (seq 'rV[R]_o) :=
  match mt with
  | None | Some MRect | Some MSecondRect => memory_rect dt K E
  | Some MTrapz | Some MSecondTrapz => memory_trapz dt K E
  | _ => Err ValueError
  end.

Record noise_out := Noise {
  n_time : seq R; n_noise : seq 'rV[R]_o; n_obs : seq 'rV[R]_o; n_force : seq R; n_memory : seq 'rV[R]_o }.

(** models.py:138-169 for an observable whose second axis is [dim_x] (the case of
    [v] and [a]): line 162 contracts over [dim_basis] *and* [dim_x], so the force
    has one number per time, subtracted from every component. *)
Definition compute_noise d (proj : smp -> 'rV[R]_d) (force_coeff : option 'M[R]_(mf m, o))
    (kernel : option (seq 'M[R]_(d, o))) (mt : option volterra_method) (trunc_ind : nat)
    (xva : seq smp) (trunc_kernel : option nat) (start_point : nat) (end_point : option nat)
    : res noise_out :=
  if force_coeff is Some c then
    let trunc := odflt trunc_ind trunc_kernel in
    let! s0 := rd xva 0 in
    let xva := drop start_point (if end_point is Some e then take e xva else xva) in
    let time := [seq s_t s - s_t s0 | s <- xva] in
    let! t1 := rd time 1 in
    let! t0 := rd time 0 in
    let dt := t1 - t0 in
    let E := [seq proj s | s <- xva] in
    let force := [seq \sum_(j < mf m) \sum_(l < o) Ef m s 0 j * c j l | s <- xva] in
    if kernel is Some kern then
      let! memory := memory_for mt dt (take trunc kern) E in
      Ok {| n_time := time;
            n_noise := [seq p.1 - const_mx p.2.1 - p.2.2
                       | p <- zip [seq s_obs s | s <- xva] (zip force memory)];
            n_obs := [seq s_obs s | s <- xva];
            n_force := force;
            n_memory := memory |}
    else Err TypeError
  else Err Documented.

(** models.py:209-222 *)
Definition force_eval (force_coeff : option 'M[R]_(mf m, o)) (xs : seq smp) : res (seq 'rV[R]_o) :=
  if force_coeff is Some c then Ok [seq Ef m s *m c | s <- xs] else Err Documented.

(** models.py:171-207; [left_op] already resolved to an array. *)
Definition compute_corrs_w_noise q d (proj : smp -> 'rV[R]_d) (force_coeff : option 'M[R]_(mf m, o))
    (kernel : option (seq R * seq 'M[R]_(d, o))) (mt : option volterra_method)
    (xva : seq smp) (left : seq 'rV[R]_q) : res (seq R * seq 'M[R]_(q, o)) :=
  if force_coeff is Some c then
    if kernel is Some (times, kern) then
      let time := [seq s_t s | s <- xva] in
      let! t1 := rd time 1 in
      let! t0 := rd time 0 in
      let dt := t1 - t0 in
      let noise := [seq s_obs s - Ef m s *m c | s <- xva] in
      let E := [seq proj s | s <- xva] in
      match mt with
      | None | Some MRect | Some MSecondRect =>
          let! cr := corrs_rect dt noise kern E left in Ok (times, cr)
      | Some MTrapz | Some MSecondTrapz =>
          let! cr := corrs_trapz dt noise kern E left in Ok (take (size times).-1 times, cr)
      | _ => Err ValueError
      end
    else Err Documented
  else Err Documented.

End Noise.
