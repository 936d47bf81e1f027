(** * Prony series: VolterraBasis/fit_prony.py.

    [np.linalg.svd(hankel, hermitian=True)] is an input of the model: the matrix [U], the
    singular values [s] and the matrix [Vh] it returns (/PronySpec.v/ says what they satisfy).
    A division by an exact zero does not raise in numpy: it fills the arrays with nan or inf;
    the model stops there with [ZeroDivision].  The machine precision is the parameter [eps].
    Messages printed are left out. *)
From mathcomp Require Import all_ssreflect all_algebra.
From Verif Require Import Base.
Set Implicit Arguments.
Unset Strict Implicit.
Unset Printing Implicit Defensive.
Import Order.TTheory GRing.Theory Num.Theory.
Local Open Scope ring_scope.

Section Prony.
Variable R : rcfType.

(** [y[o:o+len(s)] = s] *)
Definition write_at (y : seq R) (o : nat) (s : seq R) : seq R := take o y ++ s ++ drop (o + size s) y.

(** reconstruct_data, fit_prony.py:12-19; [junk]: content of [np.empty]. *)
Definition reconstruct_data (p q : nat) (H : 'M[R]_(p.+1, q.+1)) (junk : nat -> R) : seq R :=
  let y := mkseq junk (p.+1 + q.+1 - 1) in
  let y := write_at y 0 [seq H i 0 | i <- enum 'I_p.+1] in
  write_at y (q.+1 - 1) [seq H ord_max j | j <- enum 'I_q.+1].

(** fit_prony.py:31, 132 *)
Definition half_len (y : seq R) : nat := (size y - 1) %/ 2.

(** scipy.linalg.hankel(y[: n + 1], y[n : 2 * n + 1]), fit_prony.py:32, 133: first column
    [y[0..n]], last row [y[n..2n]]; entry (i, j) is read from the column when [i + j <= n]
    and from the row otherwise. *)
Definition hankel (y : seq R) (n : nat) : 'M[R]_n.+1 :=
  let c := take n.+1 y in
  let r := take n.+1 (drop n y) in
  \matrix_(i, j) if (i + j <= n)%N then c`_(i + j) else r`_(i + j - n).

(** phi_bis, fit_prony.py:22-23 *)
Definition phi_bis n (u v : 'rV[R]_n.+1) (A : 'M[R]_n.+1) : R := (u *m (A *m v^T)) 0 0.

(** Threshold, numbers of singular values and filtered matrix, fit_prony.py:36-50 and
    136-152. *)
Definition s_max (s : seq R) : R := foldr Num.max 0 s.

Definition keep (eps : R) (n : nat) (s : seq R) (thres : option R) (N_keep : option nat) : res (R * nat) :=
  let thres := if thres is Some t then t else s_max s * n.+1%:R * eps in
  let N_rank := count (fun x => thres < x) s in
  let! tN := (if N_keep is Some k then
                let N := minn k N_rank in
                let! t := rd s N in
                Ok (t, N)
              else Ok (thres, N_rank)) in
  let: (thres, N) := tN in
  Ok (thres, minn N n).

Definition filtered n (U : 'M[R]_n.+1) (s : seq R) (Vh : 'M[R]_n.+1) (N : nat) : 'M[R]_n.+1 :=
  \matrix_(i, j) \sum_(k < n.+1 | (k < N)%N) U i k * s`_k * Vh k j.

(** Inner loop, fit_prony.py:59-60. *)
Fixpoint orth n (H : 'M[R]_n.+1) (t : 'rV[R]_n.+1) (us : seq 'rV[R]_n.+1) : res 'rV[R]_n.+1 :=
  if us is u :: us' then
    if phi_bis u u H == 0 then Err ZeroDivision
    else orth H (t - (phi_bis t u H / phi_bis u u H) *: u) us'
  else Ok t.

(** Outer loop, fit_prony.py:56-67.  The rows [u[:curr_i]] and the entries [D[:curr_i]]. *)
Fixpoint ldl_loop n (H : 'M[R]_n.+1) (thres : R) (N : nat) (l : seq 'I_n.+1)
    (us : seq 'rV[R]_n.+1) (D : seq R) : res (seq 'rV[R]_n.+1 * seq R) :=
  if l is i :: l' then
    let! t := orth H (delta_mx 0 i) us in
    let c := phi_bis t t H in
    let! st := (if thres <= `|c| then
                  if (size us < N)%N then Ok (rcons us t, rcons D c) else Err OutOfBounds
                else Ok (us, D)) in
    let: (us, D) := st in
    if (N <= size us)%N then Ok (us, D) else ldl_loop H thres N l' us D
  else Ok (us, D).

(** fit_prony.py:52-72: rows of [dlu] and diagonal of the matrix of signs. *)
Definition ldl_rows n (H : 'M[R]_n.+1) (thres : R) (N : nat) : res (seq 'rV[R]_n.+1 * seq R) :=
  let! st := ldl_loop H thres N (enum 'I_n.+1) [::] [::] in
  let: (us, D) := st in
  if size us == 0%N then Err ValueError
  else if has (fun c => c == 0) D then Err ZeroDivision
  else Ok (mkseq (fun i => (1 / Num.sqrt `|D`_i|) *: us`_i) (size us), map Num.sg D).

(** ldl_hankel, fit_prony.py:26-72, [n] being the default. *)
Definition ldl_hankel (eps : R) (y : seq R) (U : 'M[R]_((half_len y).+1)) (s : seq R)
    (Vh : 'M[R]_((half_len y).+1)) (thres : option R) (N_keep : option nat) :
    res (seq 'rV[R]_((half_len y).+1) * seq R * 'M[R]_((half_len y).+1)) :=
  let! tN := keep eps (half_len y) s thres N_keep in
  let: (thres, N) := tN in
  let H := filtered U s Vh N in
  let! us := ldl_rows H thres N in
  Ok (us.1, us.2, H).

(** get_jacobi_matrix_reduced, fit_prony.py:75-88: [dlu @ (H @ shift) @ dlu.T @ D]. *)
Definition shift n : 'M[R]_n.+1 := \matrix_(i, j) (i == j.+1 :> nat)%:R.

Definition stack n (l : seq 'rV[R]_n.+1) : 'M[R]_(size l, n.+1) := \matrix_(i < size l) l`_i.

Definition jacobi n r (H : 'M[R]_n.+1) (dlu : 'M[R]_(r, n.+1)) (D : 'rV[R]_r) : 'M[R]_r :=
  dlu *m (H *m shift n) *m dlu^T *m diag_mx D.

Definition get_jacobi (eps : R) (y : seq R) (U : 'M[R]_((half_len y).+1)) (s : seq R)
    (Vh : 'M[R]_((half_len y).+1)) (thres : option R) (N_keep : option nat) : res {r : nat & 'M[R]_r} :=
  let! f := ldl_hankel eps U s Vh thres N_keep in
  let: (dlu, D, H) := f in
  Ok (existT _ (size dlu) (jacobi H (stack dlu) (\row_j D`_j))).

(** prony_inspect_data, fit_prony.py:121-149: filtered series. *)
Definition prony_inspect (eps : R) (data : seq R) :
    let y := map (fun x => x / data`_0) data in
    'M[R]_((half_len y).+1) -> seq R -> 'M[R]_((half_len y).+1) -> option R -> option nat -> (nat -> R) ->
    res (seq R) :=
  fun U s Vh thres N_keep junk =>
  let y := map (fun x => x / data`_0) data in
  if size data == 0%N then Err OutOfBounds
  else if data`_0 == 0 then Err ZeroDivision
  else
  let! tN := keep eps (half_len y) s thres N_keep in
  let H := filtered U s Vh tN.2 in
  Ok (map ( *%R data`_0) (reconstruct_data H junk)).

End Prony.
