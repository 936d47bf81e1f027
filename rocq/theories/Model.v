(** * Model of the model classes of /repo/VolterraBasis/models.py: which functions of
    a sample make up the force basis, the kernel basis and its time derivative.

    A sample is the content of one time index of the xarray dataset:
    time, position, velocity, acceleration, observable ([L_obs] column). *)
From mathcomp Require Import all_ssreflect all_algebra.
From Verif Require Import Base.
Set Implicit Arguments.
Unset Strict Implicit.
Unset Printing Implicit Defensive.
Import GRing.Theory.
Local Open Scope ring_scope.

Section Models.
Variables (R : realFieldType) (dx o : nat).

Definition sample : Type := (R * 'rV[R]_dx * 'rV[R]_dx * 'rV[R]_dx * 'rV[R]_o)%type.
Definition s_t (s : sample) : R := s.1.1.1.1.
Definition s_x (s : sample) : 'rV[R]_dx := s.1.1.1.2.
Definition s_v (s : sample) : 'rV[R]_dx := s.1.1.2.
Definition s_a (s : sample) : 'rV[R]_dx := s.1.2.
Definition s_obs (s : sample) : 'rV[R]_o := s.2.

(** A basis object: [basis()], [deriv()], [hessian()] at a point.  With
    [const_removed] the derivative methods return [nderiv = nbasis - dim_x] rows,
    otherwise [nbasis]. *)
Record basis_fns := Basis {
  nbasis : nat;
  nderiv : nat;
  const_removed : bool;
  bval : 'rV[R]_dx -> 'rV[R]_nbasis;
  bderiv : 'rV[R]_dx -> 'M[R]_(nderiv, dx);
  bhess : 'rV[R]_dx -> 'I_nderiv -> 'M[R]_dx }.
Arguments bhess : clear implicits.

(** What [basis_vector(xva, compute_for="corrs")] returns at one sample ([Ef], [Ek],
    [dEk]), what [compute_for="kernel"] returns ([Kb], with axes [dim_basis] and
    [dim_x]), and the sizes declared by the constructor. *)
Record model_fns := Model {
  mf : nat;
  mk : nat;
  Ef : sample -> 'rV[R]_mf;
  Ek : sample -> 'rV[R]_mk;
  dEk : sample -> 'rV[R]_mk;
  mq : nat;
  mqx : nat;
  Kb : sample -> 'M[R]_(mq, mqx);
  declared_force : nat;
  declared_kernel : nat;
  default_rank_projection : bool }.

Variable b : basis_fns.

(** [xr.dot(dbk, v, dims=["dim_x"])] *)
Definition grad_dot (s : sample) (u : 'rV[R]_dx) : 'rV[R]_(nderiv b) :=
  \row_k \sum_(j < dx) bderiv b (s_x s) k j * u 0 j.

(** [xr.dot(ddbk, v, v', dims=["dim_x", "dim_x'"])] *)
Definition hess_dot (s : sample) : 'rV[R]_(nderiv b) :=
  \row_k \sum_(i < dx) \sum_(j < dx) bhess b (s_x s) k i j * s_v s 0 i * s_v s 0 j.

Definition acc_term (s : sample) : 'rV[R]_(nderiv b) := grad_dot s (s_a s) + hess_dot s.

(** models.py:405-460 *)
Definition Pos_gle : model_fns :=
  {| mf := nbasis b; mk := nderiv b;
     Ef := fun s => bval b (s_x s);
     Ek := fun s => grad_dot s (s_v s);
     dEk := acc_term;
     mq := nderiv b; mqx := dx;
     Kb := fun s => bderiv b (s_x s);
     declared_force := nbasis b;
     declared_kernel := (nbasis b - const_removed b * dx)%N;
     default_rank_projection := ~~ const_removed b |}.

(** models.py:463-502 *)
Definition Pos_gle_with_friction : model_fns :=
  {| mf := (nbasis b + nderiv b)%N; mk := nderiv b;
     Ef := fun s => row_mx (bval b (s_x s)) (grad_dot s (s_v s));
     Ek := fun s => grad_dot s (s_v s);
     dEk := acc_term;
     mq := nderiv b; mqx := dx;
     Kb := fun s => bderiv b (s_x s);
     declared_force := (2 * nbasis b - const_removed b * dx)%N;
     declared_kernel := (nbasis b - const_removed b * dx)%N;
     default_rank_projection := ~~ const_removed b |}.

(** models.py:575-601; [E = v], [dE = a]. *)
Definition Pos_gle_const_kernel : model_fns :=
  {| mf := nbasis b; mk := dx;
     Ef := fun s => bval b (s_x s);
     Ek := fun s => s_v s;
     dEk := fun s => s_a s;
     mq := o; mqx := o;
     Kb := fun _ => 1%:M;
     declared_force := nbasis b;
     declared_kernel := o;
     default_rank_projection := false |}.

End Models.
Arguments Ef {R dx o} m s.
Arguments Ek {R dx o} m s.
Arguments dEk {R dx o} m s.
Arguments Kb {R dx o} m s.
Arguments s_t {R dx o} s.
Arguments s_x {R dx o} s.
Arguments s_v {R dx o} s.
Arguments s_a {R dx o} s.
Arguments s_obs {R dx o} s.

(** The classes that force [const_removed = False] on the basis: the derivative then
    has one row per basis function. *)
Section FullDerivative.
Variables (R : realFieldType) (dx o N : nat).
Variables (val : 'rV[R]_dx -> 'rV[R]_N) (der : 'rV[R]_dx -> 'M[R]_(N, dx)).
Local Notation smp := (sample R dx o).

Definition grad_dot' (s : smp) (u : 'rV[R]_dx) : 'rV[R]_N :=
  \row_k \sum_(j < dx) der (s_x s) k j * u 0 j.

(** [E.expand_dims({"dim_x": self.dim_x}, axis=-1)] *)
Definition expanded (s : smp) : 'M[R]_(N, dx) := \matrix_(k, _) val (s_x s) 0 k.

(** models.py:659-694 and 543-572 (same basis vectors). *)
Definition Pos_gle_overdamped (rank_projection : bool) : model_fns R dx o :=
  {| mf := N; mk := N;
     Ef := fun s => val (s_x s);
     Ek := fun s => val (s_x s);
     dEk := fun s => grad_dot' s (s_v s);
     mq := N; mqx := dx;
     Kb := expanded;
     declared_force := N; declared_kernel := N;
     default_rank_projection := rank_projection |}.

Definition Pos_gle_no_vel_basis : model_fns R dx o := Pos_gle_overdamped false.

(** models.py:604-637 *)
Definition Pos_gle_hybrid : model_fns R dx o :=
  {| mf := N; mk := (dx + N)%N;
     Ef := fun s => val (s_x s);
     Ek := fun s => row_mx (s_v s) (val (s_x s));
     dEk := fun s => row_mx (s_a s) (grad_dot' s (s_v s));
     mq := N; mqx := dx;
     Kb := expanded;
     declared_force := N; declared_kernel := (N + 1)%N;
     default_rank_projection := false |}.

End FullDerivative.
