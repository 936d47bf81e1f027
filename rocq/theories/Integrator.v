(** * Time integration of the fitted equation, /repo/VolterraBasis/gle_integrate.py:182-466.

    Rows are samples.  A trajectory of [n] samples of a [d]-dimensional variable is a
    sequence of [n] rows; all numpy reads outside an array are [Err OutOfBounds]
    ([IndexError]). *)
From mathcomp Require Import all_ssreflect all_algebra.
From Verif Require Import Base.
Set Implicit Arguments.
Unset Strict Implicit.
Unset Printing Implicit Defensive.
Import GRing.Theory Num.Theory.
Local Open Scope ring_scope.

Section Integrator.
Variables (R : realFieldType) (d N Nf : nat).
Local Notation row := 'rV[R]_d.

(** What the constructor copies from the fitted model (lines 228-247): the truncated
    kernel, the force coefficients, the time step; [i_basis x] is [basis.basis(x)] and
    [i_evec x v] the kernel part of [basis_vector] (lines 262-268 and 352-357). *)
Record integrator := Integ {
  i_kernel : seq 'M[R]_(N, d);
  i_force : 'M[R]_(Nf, d);
  i_dt : R;
  i_basis : row -> 'rV[R]_Nf;
  i_evec : row -> row -> 'rV[R]_N
}.

Variable I : integrator.
Local Notation K := (i_kernel I).
Local Notation dt := (i_dt I).

(** Lines 270-273 *)
Definition mem_int_red (E : seq 'rV[R]_N) : res row :=
  let loc := minn (size E) (size K).-1 in
  let start := (size E - loc)%N in
  let Es := rev (drop start.+1 E) in
  let Ks := drop 1 (take loc K) in
  let! _ := guard (size Es == size Ks) ValueError in
  let! e := rd E start in
  let! k := rd K loc in
  Ok (dt *: (\sum_(p <- zip Es Ks) p.1 *m p.2) + (2^-1 * dt) *: (e *m k)).

(** Lines 275-281 *)
Definition f_rk (x v rmi fr : row) (alpha : R) (last_E : 'rV[R]_N) (last_rmi : row) : res (row * row) :=
  let! k0 := rd K 0 in
  let m := alpha *: (last_rmi + (2^-1 * dt) *: (last_E *m k0))
           + (1 - alpha) *: (rmi + (2^-1 * dt) *: (i_evec I x v *m k0)) in
  Ok (v, i_basis I x *m i_force I + fr - m).

(** Lines 283-289 *)
Definition rk_step (x v rmi fr : row) (last_E : 'rV[R]_N) (last_rmi : row) : res (row * row) :=
  let! k1 := f_rk x v rmi fr 1 last_E last_rmi in
  let! k2 := f_rk (x + (dt / 2%:R) *: k1.1) (v + (dt / 2%:R) *: k1.2) rmi fr 2^-1 last_E last_rmi in
  let! k3 := f_rk (x + (dt / 2%:R) *: k2.1) (v + (dt / 2%:R) *: k2.2) rmi fr 2^-1 last_E last_rmi in
  let! k4 := f_rk (x + dt *: k3.1) (v + dt *: k3.2) rmi fr 0 last_E last_rmi in
  let a := 6%:R^-1 *: (k1.2 + 2%:R *: k2.2 + 2%:R *: k3.2 + k4.2) in
  Ok (x + (dt / 6%:R) *: (k1.1 + 2%:R *: k2.1 + 2%:R *: k3.1 + k4.1), v + dt *: a).

(** A dataset with its time coordinate. *)
Record traj := Traj { t_time : seq R; t_x : seq row; t_v : seq row }.

(** State of the loop: the two columns of the trajectory, the basis values, the running
    integral, the current point. *)
Record state := St { s_x : seq row; s_v : seq row; s_E : seq 'rV[R]_N; s_rmi : row; s_cx : row; s_cv : row }.

Definition run_step (noise : seq row) (ind : nat) (s : state) : res state :=
  let! last_E := rd (s_E s) ind.-1 in
  let! rmi := mem_int_red (take ind (s_E s)) in
  let! fr := rd noise ind in
  let! xv := rk_step (s_cx s) (s_cv s) rmi fr last_E (s_rmi s) in
  let! tx := wr (s_x s) ind xv.1 in
  let! tv := wr (s_v s) ind xv.2 in
  let! E := wr (s_E s) ind (i_evec I xv.1 xv.2) in
  Ok (St tx tv E rmi xv.1 xv.2).

(** Lines 291-332.  [generated] is what [noise_generator.generate(n_steps)] returns.
    Assigning [x0["x"]] into [trj["x"][:n_0]] makes xarray compare the time coordinates:
    they must be 0, dt, ..., (n_0 - 1) dt, all of them inside the new trajectory.
    An empty [x0] reaches [E[0]] of an empty array at line 323, or line 319. *)
Definition run (n_steps : nat) (x0 : option traj) (set_noise_to_zero : bool) (generated : seq row)
    : res traj :=
  let noise := if set_noise_to_zero then nseq n_steps 0 else generated in
  let tx := nseq n_steps (0 : row) in
  let tv := nseq n_steps (0 : row) in
  let! init :=
    (if x0 is Some s then
       let n0 := size (t_time s) in
       let! _ := guard (t_time s == mkseq (fun i => i%:R * dt) n0) OutOfBounds in
       let! _ := guard (0 < n0 <= n_steps)%N OutOfBounds in
       let! _ := guard ((size (t_x s) == n0) && (size (t_v s) == n0)) ValueError in
       Ok (n0, t_x s ++ drop n0 tx, t_v s ++ drop n0 tv)
     else Ok (1%N, tx, tv)) in
  let: (n0, tx, tv) := init in
  let time := mkseq (fun i => (n0 - 1 + i)%N%:R * dt) n_steps in
  let! E := for_ 0 n0 (fun ind E =>
      let! x := rd tx ind in
      let! v := rd tv ind in
      wr E ind (i_evec I x v)) (nseq n_steps 0) in
  let! rmi := (if (1 < n0)%N then mem_int_red (take n0.-1 E) else Ok 0) in
  let! x := rd tx n0.-1 in
  let! v := rd tv n0.-1 in
  let! s := for_ n0 n_steps (run_step noise) (St tx tv E rmi x v) in
  Ok (Traj time (s_x s) (s_v s)).

(** Lines 249-260, [point] being the drawn index: [n_mem] earlier samples and the point. *)
Definition initial_conditions (xva : traj) (n_mem point : nat) : res traj :=
  let! _ := guard ((n_mem <= point < size (t_time xva))%N) ValueError in
  let sl (T : Type) (s : seq T) := drop (point - n_mem) (take point.+1 s) in
  let! _ := guard ((size (t_x xva) == size (t_time xva)) && (size (t_v xva) == size (t_time xva))) ValueError in
  Ok (Traj (mkseq (fun i => i%:R * dt) n_mem.+1) (sl _ (t_x xva)) (sl _ (t_v xva))).

End Integrator.

(** Kernel part of [basis_vector]: velocity contracted with the derivative of the basis,
    optionally projected (lines 262-268); the velocity itself for the position independent
    kernel (lines 352-357). *)
Definition evec_gle (R : realFieldType) (d N : nat) (dbk : 'rV[R]_d -> 'M[R]_(N, d)) (x v : 'rV[R]_d)
    : 'rV[R]_N := v *m (dbk x)^T.
Definition evec_gle_proj (R : realFieldType) (d N N' : nat) (P : 'M[R]_(N', N)) (dbk : 'rV[R]_d -> 'M[R]_(N, d))
    (x v : 'rV[R]_d) : 'rV[R]_N' := evec_gle dbk x v *m P^T.
Definition evec_const (R : realFieldType) (d : nat) (x v : 'rV[R]_d) : 'rV[R]_d := v.

(** ** BGLEIntegrator, lines 389-466: one dimension, kernel and trajectory are vectors. *)
Section BGLE.
Variables (R : realFieldType) (K : seq R) (dt : R).

(** Lines 398-402.  [v[:stop:-1]] are the entries [len v - 1, ..., stop + 1]. *)
Definition bgle_mem (v : seq R) : res R :=
  let v := if (size v < size K)%N then nseq (size K - size v).+1 0 ++ v else v in
  let w := rev (drop (size v - (size K).-1) v) in
  let! _ := guard (size w == (size K).-1) ValueError in
  let integrand := [seq p.1 * p.2 | p <- zip (behead K) w] in
  let! last := (if size integrand is n.+1 then rd integrand n else Err OutOfBounds) in
  Ok ((2^-1 * last + \sum_(y <- take (size integrand).-1 integrand) y) * dt).

(** Lines 404-407, [force] is [-dU]. *)
Definition bgle_f (force : R -> R) (x v rmi fr next_w last_w last_v last_rmi : R) : res (R * R) :=
  let! k0 := rd K 0 in
  Ok (v, - next_w * rmi - last_w * last_rmi - 2^-1 * next_w * k0 * v * dt
         - 2^-1 * last_w * k0 * last_v * dt + force x + fr).

End BGLE.
