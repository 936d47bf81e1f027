(** * Model of /repo/VolterraBasis/fkernel.f90 (all routines, lines 1-490).

    Arrays with a time axis are sequences of matrices, one per time, whatever the
    position of the time axis in the Fortran declaration.  Double precision
    numbers are elements of an arbitrary real field [R] (exact arithmetic).
    f2py derives [lenTraj], [len_mem] from the shapes (size minus one), checks
    that arrays sharing a dimension agree ([ShapeMismatch]) and hands the routine
    zero-filled [intent(out)] arrays.  The [_buf] variants take the initial
    content of the output array as a parameter. *)
From mathcomp Require Import all_ssreflect all_algebra.
From Verif Require Import Base.
Set Implicit Arguments.
Unset Strict Implicit.
Unset Printing Implicit Defensive.
Import GRing.Theory.
Local Open Scope ring_scope.

Section FKernel.
Variable R : realFieldType.

(** fkernel.f90:12-30 [inv]: LAPACK LU inverse, [stop] when singular. *)
Definition finv d (A : 'M[R]_d) : res 'M[R]_d :=
  if A \in unitmx then Ok (invmx A) else Err Singular.

Section Quadratures.
Variables (o d m : nat).
Implicit Types (B : seq 'M[R]_(o, d)) (K : seq 'M[R]_(d, m)).

(** fkernel.f90:34-46 *)
Definition rect_integral (dt : R) (n : nat) B K : res 'M[R]_(o, m) :=
  for_ 0 n (fun j acc =>
    let! b := rd B (n - j) in
    let! k := rd K j in
    Ok (acc + dt *: (b *m k))) 0.

(** fkernel.f90:49-61 *)
Definition midpoint_integral (dt : R) (n : nat) B K : res 'M[R]_(o, m) :=
  for_ 0 n (fun j acc =>
    let! b := rd B (2 * (n - j))%N in
    let! k := rd K j in
    Ok (acc + dt *: (b *m k))) 0.

(** fkernel.f90:65-77 *)
Definition trapz_integral (dt : R) (n : nat) B K : res 'M[R]_(o, m) :=
  let! b := rd B n in
  let! k := rd K 0 in
  for_ 1 n (fun j acc =>
    let! b := rd B (n - j) in
    let! k := rd K j in
    Ok (acc + dt *: (b *m k))) ((2^-1 * dt) *: (b *m k)).

(** The values taken by [do j = start, n-2, 2] (fkernel.f90:99): number of trips
    is [(n-2-start+2)/2] when nonnegative. *)
Definition stride2 (start n : nat) : seq nat :=
  [seq (start + 2 * i)%N | i <- iota 0 ((n - start) %/ 2)].

(** fkernel.f90:80-105.  The last statement reads [kernel(n-1)], which is out of
    bounds for [n = 0]. *)
Definition simpson_integral (dt : R) (n : nat) B K : res 'M[R]_(o, m) :=
  let h := dt / 3%:R in
  let! init :=
    (if odd n then
       let! b := rd B n in
       let! k := rd K 0 in
       let! b' := rd B n.-1 in
       let! k' := rd K 1 in
       Ok ((2^-1 * dt) *: (b *m k) + (2^-1 * dt + h) *: (b' *m k') : 'M[R]_(o, m), 2%N)
     else
       let! b := rd B n in
       let! k := rd K 0 in
       Ok (h *: (b *m k) : 'M[R]_(o, m), 1%N)) in
  let! acc := forM (stride2 init.2 n) (fun j acc =>
    let! b := rd B (n - j) in
    let! k := rd K j in
    let! b' := rd B (n - j - 1) in
    let! k' := rd K j.+1 in
    Ok (acc + (4%:R * h) *: (b *m k) + (2 * h) *: (b' *m k'))) init.1 in
  let! b := rd B 1 in
  let! k := (if n is n'.+1 then rd K n' else Err OutOfBounds) in
  Ok (acc + (4%:R * h) *: (b *m k)).

End Quadratures.

Section Inversion.
Variables (d m : nat).
Implicit Types (B : seq 'M[R]_d) (D K buf : seq 'M[R]_(d, m)).

(** fkernel.f90:108-130.  [lenTraj = size B - 1]; the loop [do i = 1, lenTraj-1]. *)
Definition kernel_first_kind_rect_buf buf (dt : R) B D : res (seq 'M[R]_(d, m)) :=
  let! _ := guard (size D == size B) ShapeMismatch in
  let! b1 := rd B 1 in
  let! invB0 := finv (dt *: b1) in
  let! d1 := rd D 1 in
  let! K := wr buf 0 (-1 *: (invB0 *m d1)) in
  for_ 1 (size B).-1 (fun i K =>
    let! Bs := slice B 1 i.+1 in
    let! Ks := slice K 0 i in
    let! num := rect_integral dt i Bs Ks in
    let! dx := rd D i.+1 in
    wr K i (-1 *: (invB0 *m (num + dx)))) K.

Definition kernel_first_kind_rect dt B D :=
  kernel_first_kind_rect_buf (nseq (size B) 0) dt B D.

(** fkernel.f90:132-154.  The output has [(lenTraj-1)/2 + 1] samples (truncated
    division: 1 sample when [lenTraj = 0]); the loop is [do i = 1, lenTraj/2-1]. *)
Definition midpoint_len (n : nat) : nat := ((n.-1).-1 %/ 2).+1.

Definition kernel_first_kind_midpoint_buf buf (dt : R) B D : res (seq 'M[R]_(d, m)) :=
  let! _ := guard (size D == size B) ShapeMismatch in
  let! b1 := rd B 1 in
  let! invB0 := finv ((2 * dt) *: b1) in
  let! d1 := rd D 1 in
  let! K := wr buf 0 (-1 *: (invB0 *m d1)) in
  for_ 1 ((size B).-1 %/ 2) (fun i K =>
    let! Bs := slice B 0 (2 * i) in
    let! Ks := slice K 0 i in
    let! num := midpoint_integral (2 * dt) i Bs Ks in
    let! dx := rd D (2 * i).+1 in
    wr K i (-1 *: (invB0 *m (num + dx)))) K.

Definition kernel_first_kind_midpoint dt B D :=
  kernel_first_kind_midpoint_buf (nseq (midpoint_len (size B)) 0) dt B D.

(** fkernel.f90:156-179 *)
Definition kernel_first_kind_trapz_buf buf (dt : R) (k0 : 'M[R]_(d, m)) B D
    : res (seq 'M[R]_(d, m)) :=
  let! _ := guard (size D == size B) ShapeMismatch in
  let! b0 := rd B 0 in
  let! invB0 := finv ((2^-1 * dt) *: b0) in
  let! K := wr buf 0 k0 in
  for_ 1 (size B) (fun i K =>
    let! Bs := slice B 0 i in
    let! Ks := slice K 0 i in
    let! num := trapz_integral dt i Bs Ks in
    let! dx := rd D i in
    wr K i (-1 *: (invB0 *m (num + dx)))) K.

Definition kernel_first_kind_trapz dt k0 B D :=
  kernel_first_kind_trapz_buf (nseq (size B) 0) dt k0 B D.

(** fkernel.f90:181-208 *)
Definition kernel_first_kind_simpson (dt : R) (k0 : 'M[R]_(d, m)) B D
    : res (seq 'M[R]_(d, m)) :=
  let! _ := guard (size D == size B) ShapeMismatch in
  let! b0 := rd B 0 in
  let! invB0 := finv ((2^-1 * dt) *: b0) in
  let! K := wr (nseq (size B) 0) 0 k0 in
  let! d1 := rd D 1 in
  let! b1 := rd B 1 in
  let! K := wr K 1 (invB0 *m (-1 *: d1 - (2^-1 * dt) *: (b1 *m k0))) in
  let! invB0 := finv (3%:R^-1 *: (dt *: b0)) in
  for_ 2 (size B) (fun i K =>
    let! Bs := slice B 0 i in
    let! Ks := slice K 0 i in
    let! num := simpson_integral dt i Bs Ks in
    let! dx := rd D i in
    wr K i (-1 *: (invB0 *m (num + dx)))) K.

(** fkernel.f90:211-235 *)
Definition kernel_second_kind_rect_buf buf (dt : R) (k0 : 'M[R]_(d, m)) (B0 : 'M[R]_d)
    (Bdot : seq 'M[R]_d) (Ddot : seq 'M[R]_(d, m)) : res (seq 'M[R]_(d, m)) :=
  let! _ := guard (size Ddot == size Bdot) ShapeMismatch in
  let! invB0 := finv B0 in
  let! K := wr buf 0 k0 in
  for_ 1 (size Bdot) (fun i K =>
    let! Bs := slice Bdot 0 i in
    let! Ks := slice K 0 i in
    let! num := rect_integral dt i Bs Ks in
    let! dx := rd Ddot i in
    wr K i (invB0 *m (num + dx))) K.

Definition kernel_second_kind_rect dt k0 (B0 : 'M[R]_d) (Bdot : seq 'M[R]_d)
    (Ddot : seq 'M[R]_(d, m)) :=
  kernel_second_kind_rect_buf (nseq (size Bdot) 0) dt k0 B0 Bdot Ddot.

(** fkernel.f90:238-262 *)
Definition kernel_second_kind_trapz_buf buf (dt : R) (k0 : 'M[R]_(d, m)) (B0 : 'M[R]_d)
    (Bdot : seq 'M[R]_d) (Ddot : seq 'M[R]_(d, m)) : res (seq 'M[R]_(d, m)) :=
  let! _ := guard (size Ddot == size Bdot) ShapeMismatch in
  let! bd0 := rd Bdot 0 in
  let! invB0 := finv (B0 - (2^-1 * dt) *: bd0) in
  let! K := wr buf 0 k0 in
  for_ 1 (size Bdot) (fun i K =>
    let! Bs := slice Bdot 0 i in
    let! Ks := slice K 0 i in
    let! num := trapz_integral dt i Bs Ks in
    let! dx := rd Ddot i in
    wr K i (invB0 *m (num + dx))) K.

Definition kernel_second_kind_trapz dt k0 (B0 : 'M[R]_d) (Bdot : seq 'M[R]_d)
    (Ddot : seq 'M[R]_(d, m)) :=
  kernel_second_kind_trapz_buf (nseq (size Bdot) 0) dt k0 B0 Bdot Ddot.

(** fkernel.f90:265-290 *)
Definition kernel_second_kind_simpson (dt : R) (k0 : 'M[R]_(d, m)) (B0 : 'M[R]_d)
    (Bdot : seq 'M[R]_d) (Ddot : seq 'M[R]_(d, m)) : res (seq 'M[R]_(d, m)) :=
  let! _ := guard (size Ddot == size Bdot) ShapeMismatch in
  let! bd0 := rd Bdot 0 in
  let! invB0 := finv (B0 + (2^-1 * dt) *: bd0) in
  let! K := wr (nseq (size Bdot) 0) 0 k0 in
  let! dd1 := rd Ddot 1 in
  let! bd1 := rd Bdot 1 in
  let! K := wr K 1 (invB0 *m (dd1 + (2^-1 * dt) *: (bd1 *m k0))) in
  let! invB0 := finv (B0 + 3%:R^-1 *: (dt *: bd0)) in
  for_ 2 (size Bdot) (fun i K =>
    let! Bs := slice Bdot 0 i in
    let! Ks := slice K 0 i in
    let! num := simpson_integral dt i Bs Ks in
    let! dx := rd Ddot i in
    wr K i (invB0 *m (num + dx))) K.

End Inversion.

Section Memory.
Variables (d m : nat).
Implicit Types (K : seq 'M[R]_(d, m)) (E : seq 'rV[R]_d).

(** fkernel.f90:296-314.  [len_mem = size K - 1], [lenTraj = size E - 1]. *)
Definition memory_rect (dt : R) K E : res (seq 'rV[R]_m) :=
  let mem0 := nseq (size E) 0 in
  for_ 1 (size E) (fun i mem =>
    for_ 0 (minn i (size K).-1).+1 (fun j mem =>
      let! mi := rd mem i in
      let! e := rd E (i - j) in
      let! k := rd K j in
      wr mem i (mi - dt *: (e *m k))) mem) mem0.

(** fkernel.f90:316-336 *)
Definition memory_trapz (dt : R) K E : res (seq 'rV[R]_m) :=
  let! mem0 := wr (nseq (size E) 0) 0 0 in
  for_ 1 (size E) (fun i mem =>
    let! e := rd E i in
    let! k := rd K 0 in
    let! mem := wr mem i ((- 2^-1 * dt) *: (e *m k)) in
    let! mem :=
      for_ 1 (minn i.-1 (size K).-1).+1 (fun j mem =>
        let! mi := rd mem i in
        let! e := rd E (i - j) in
        let! k := rd K j in
        wr mem i (mi - dt *: (e *m k))) mem in
    let l := minn i (size K).-1 in
    let! mi := rd mem i in
    let! e := rd E (i - l) in
    let! k := rd K l in
    wr mem i (mi - (2^-1 * dt) *: (e *m k))) mem0.

End Memory.

Section Corrs.
Variables (d m o : nat).
Implicit Types (K : seq 'M[R]_(d, m)) (E : seq 'rV[R]_d)
  (noise : seq 'rV[R]_m) (left : seq 'rV[R]_o).

(** fkernel.f90:354-358: [sum(left_op(:lenTraj-n,k)*noise(:lenTraj-n,l)) /
    (lenTraj-n+1)].  [cnt] is [lenTraj-n+1]; when it is 0 the compiled routine
    stores NaN (0/0), here an error. *)
Definition window_mean (cnt : nat) left noise : res 'M[R]_(o, m) :=
  if cnt is 0 then Err ZeroDivision else
  Ok (\matrix_(k < o, l < m)
        (foldl +%R 0 [seq (p : 'rV[R]_o * 'rV[R]_m).1 0 k * p.2 0 l
                     | p <- zip (take cnt left) (take cnt noise)] / cnt%:R)).

(** fkernel.f90:338-363.  [lenTraj + 1 = size noise]; at step [n] the update
    rewrites the first [lenTraj-n] entries. *)
Definition corrs_rect (dt : R) noise_init K E left : res (seq 'M[R]_(o, m)) :=
  let N := size noise_init in
  let! _ := guard ((size E == N) && (size left == N)) ShapeMismatch in
  let! st := for_ 0 (size K) (fun n (st : seq 'M[R]_(o, m) * seq 'rV[R]_m) =>
      let: (corrs, noise) := st in
      let! c := window_mean (N - n) left noise in
      let! corrs := wr corrs n c in
      let! kn := rd K n in
      let cnt := (N - n).-1 in
      let upd := [seq p.1 + dt *: (p.2 *m kn)
                 | p <- zip (take cnt (drop 1 noise)) (take cnt (drop 1 E))] in
      Ok (corrs, upd ++ drop cnt noise))
    (nseq (size K) 0, noise_init) in
  Ok st.1.

(** fkernel.f90:365-391.  [corrs] has [len_mem] samples. *)
Definition corrs_trapz (dt : R) noise_init K E left : res (seq 'M[R]_(o, m)) :=
  let N := size noise_init in
  let! _ := guard ((size E == N) && (size left == N)) ShapeMismatch in
  let! st := for_ 0 (size K).-1 (fun n (st : seq 'M[R]_(o, m) * seq 'rV[R]_m) =>
      let: (corrs, noise) := st in
      let! c := window_mean (N - n) left noise in
      let! corrs := wr corrs n c in
      let! kn := rd K n in
      let! kn1 := rd K n.+1 in
      let cnt := (N - n).-1 in
      let upd := [seq p.1 + (2^-1 * dt) *: (p.2.1 *m kn) + (2^-1 * dt) *: (p.2.2 *m kn1)
                 | p <- zip (take cnt (drop 1 noise))
                            (zip (take cnt (drop 1 E)) (take cnt E))] in
      Ok (corrs, upd ++ drop cnt noise))
    (nseq (size K).-1 0, noise_init) in
  Ok st.1.

End Corrs.

Section SolveIDE.
Variables (d o : nat).
Implicit Types (K : seq 'M[R]_d) (E : seq 'M[R]_(o, d)).

(** fkernel.f90:395-423.  [max_len = min(i,len_mem)-1] is -1 when [len_mem = 0];
    both sections are then empty and the integral is 0, as it is with 0. *)
Definition solve_ide_rect (dt : R) (len : nat) K (E0 : 'M[R]_(o, d)) (F : 'M[R]_d)
    : res (seq 'M[R]_(o, d)) :=
  let! E := wr (nseq len 0) 0 E0 in
  let! k0 := rd K 0 in
  let! invK0 := finv (1%:M + (dt ^+ 2) *: k0) in
  for_ 1 len (fun i E =>
    let max_len := (minn i (size K).-1).-1 in
    let! Es := slice E (i - max_len) i in
    let! Ks := slice K 0 max_len in
    let! memory := rect_integral dt max_len Es Ks in
    let! ep := rd E i.-1 in
    wr E i ((ep - dt *: memory + dt *: (ep *m F)) *m invK0)) E.

(** fkernel.f90:425-454 *)
Definition solve_ide_trapz (dt : R) (len : nat) K (E0 : 'M[R]_(o, d)) (F : 'M[R]_d)
    : res (seq 'M[R]_(o, d)) :=
  let! E := wr (nseq len 0) 0 E0 in
  let! k0 := rd K 0 in
  let! invK0 := finv (1%:M + (2^-1 * dt ^+ 2) *: k0) in
  for_ 1 len (fun i E =>
    let max_len := minn i (size K).-1 in
    let! Es := slice E (i - max_len) i in
    let! Ks := slice K 0 max_len in
    let! memory := trapz_integral dt max_len Es Ks in
    let! ep := rd E i.-1 in
    wr E i ((ep - dt *: memory + dt *: (ep *m F)) *m invK0)) E.

(** Entry [(a, b)] (0-based) of a matrix given by naturals. *)
Definition mget p q (A : 'M[R]_(p, q)) (a b : nat) : R :=
  match insub a : option 'I_p, insub b : option 'I_q with
  | Some a, Some b => A a b
  | _, _ => 0
  end.

(** The section [E(lo:hi,:,:)] over the *first* axis (declared [dim_other], i.e.
    1-based), passed by sequence association to a dummy declared
    [(dim_out,dim_basis,0:n)]: element [(p,q,s)] of the dummy is the element of
    column-major rank [p + o*(q + d*s)] of the section, whose extents are
    [(hi-lo+1, d, len)]. *)
Definition section_axis1 E (lo hi n : nat) : res (seq 'M[R]_(o, d)) :=
  if (1 <= lo)%N && (hi <= o)%N then
    let w := (hi - lo).+1 in
    if (o * d * n.+1 <= w * d * size E)%N then
      Ok (mkseq (fun s => \matrix_(p < o, q < d)
             let r := (p + o * (q + d * s))%N in
             mget (nth 0 E (r %/ (w * d))) (lo.-1 + r %% w) ((r %/ w) %% d)) n.+1)
    else Err OutOfBounds
  else Err OutOfBounds.

(** fkernel.f90:483-484: clip at zero, divide by the total (NaN if the total is
    0). *)
Definition simplex_step (A : 'M[R]_(o, d)) : res 'M[R]_(o, d) :=
  let A' := \matrix_(i, j) Num.max (A i j) 0 in
  let s := \sum_(i < o) \sum_(j < d) A' i j in
  if s == 0 then Err ZeroDivision else Ok (map_mx (fun x => x / s) A').

(** fkernel.f90:457-489 *)
Definition solve_ide_trapz_stab (dt : R) (len : nat) K (E0 : 'M[R]_(o, d)) (F : 'M[R]_d)
    : res (seq 'M[R]_(o, d)) :=
  let! E := wr (nseq len 0) 0 E0 in
  let! k0 := rd K 0 in
  let! invK0 := finv (1%:M + (2^-1 * dt ^+ 2) *: k0) in
  for_ 1 len (fun i E =>
    let max_len := minn i (size K).-1 in
    let! Es := section_axis1 E (i - max_len) i max_len in
    let! Ks := slice K 0 max_len in
    let! memory := trapz_integral dt max_len Es Ks in
    let! ep := rd E i.-1 in
    let! e := simplex_step ((ep - dt *: memory + dt *: (ep *m F)) *m invK0) in
    wr E i e) E.

End SolveIDE.
End FKernel.
