(** * Building datasets and finite differences, /repo/VolterraBasis/__init__.py:27-227.

    A missing value (NaN) is [None]; arithmetic propagates it, comparisons with it are
    false.  An array over (time, dim_x) is a sequence of rows. *)
From mathcomp Require Import all_ssreflect all_algebra.
From Verif Require Import Base.
Set Implicit Arguments.
Unset Strict Implicit.
Unset Printing Implicit Defensive.
Import GRing.Theory Num.Theory.
Local Open Scope ring_scope.

Section Frames.
Variables (R : realFieldType) (d : nat).
Local Notation orow := 'rV[option R]_d.
Local Notation row := 'rV[R]_d.

Definition nan_row : orow := \matrix_(i, j) None.

Definition omap2 (f : R -> R -> R) (x y : option R) : option R :=
  if x is Some a then if y is Some b then Some (f a b) else None else None.

Definition osub (x y : orow) : orow := \matrix_(i, j) omap2 (fun a b => a - b) (x i j) (y i j).
Definition oadd (x y : orow) : orow := \matrix_(i, j) omap2 +%R (x i j) (y i j).
Definition oscale (c : R) (x : orow) : orow := \matrix_(i, j) omap ( *%R c) (x i j).

(** [xf.shift({"time": 1})] and [xf.shift({"time": -1})] *)
Definition shift_fwd (x : seq orow) : seq orow :=
  mkseq (fun t => if t is t'.+1 then nth nan_row x t' else nan_row) (size x).
Definition shift_bwd (x : seq orow) : seq orow :=
  mkseq (fun t => nth nan_row x t.+1) (size x).

Definition seq2 (f : orow -> orow -> orow) (x y : seq orow) : seq orow :=
  [seq f p.1 p.2 | p <- zip x y].

(** All components valid. *)
Definition all_some (x : orow) : option row :=
  if [forall j, x 0 j] then Some (\row_j odflt 0 (x 0 j)) else None.

(** A dataset with variables x, v, a. *)
Definition out_sample : Type := (R * row * row * row)%type.

(** [.dropna("time")] on (x, v, a): a time is kept when every component of every
    variable is valid. *)
Definition dropna (time : seq R) (x v a : seq orow) : seq out_sample :=
  pmap (fun t =>
    if all_some (nth nan_row x t) is Some x' then
      if all_some (nth nan_row v t) is Some v' then
        if all_some (nth nan_row a t) is Some a' then Some (time`_t, x', v', a') else None
      else None
    else None) (iota 0 (size x)).

(** Lines 122-126 / 149-153: [xr.where(cond, diffs, other)] *)
Definition correct_low (jump thr : R) (x : orow) : orow :=
  \matrix_(i, j) (if x i j is Some v then if - thr < v then Some v else Some (v + jump) else None).
Definition correct_high (jump thr : R) (x : orow) : orow :=
  \matrix_(i, j) (if x i j is Some v then if v < thr then Some v else Some (v - jump) else None).

Definition differences (correct_jumps : bool) (jump thr : R) (x : seq orow) : seq orow :=
  let diffs := seq2 osub x (shift_fwd x) in
  if correct_jumps then [seq correct_high jump thr (correct_low jump thr r) | r <- diffs] else diffs.

(** Lines 109-134 *)
Definition compute_va (correct_jumps : bool) (jump thr lamb dt : R) (time : seq R) (x : seq orow)
    : seq out_sample :=
  let diffs := differences correct_jumps jump thr x in
  let ddiffs := seq2 osub (shift_bwd diffs) diffs in
  let sdiffs := seq2 oadd [seq oscale lamb r | r <- shift_bwd diffs]
                          [seq oscale (1 - lamb) r | r <- diffs] in
  dropna time x [seq oscale dt^-1 r | r <- sdiffs] [seq oscale (dt ^+ 2)^-1 r | r <- ddiffs].

(** Lines 137-161 *)
Definition compute_va_gjf (correct_jumps : bool) (jump thr dt : R) (time : seq R) (x : seq orow)
    : seq out_sample :=
  let diffs := differences correct_jumps jump thr x in
  let ddiffs := seq2 osub (shift_bwd diffs) diffs in
  dropna time x [seq oscale dt^-1 r | r <- diffs] [seq oscale (dt ^+ 2)^-1 r | r <- ddiffs].

(** Lines 92-106 *)
Definition compute_a (dt : R) (time : seq R) (x v : seq orow) : seq out_sample :=
  let diffs := seq2 osub x (shift_fwd x) in
  let ddiffs := seq2 osub (shift_bwd diffs) diffs in
  dropna time x v [seq oscale (dt ^+ 2)^-1 r | r <- ddiffs].

(** Lines 76-89 *)
Definition compute_a_from_vel (dt : R) (time : seq R) (x v : seq orow) : seq out_sample :=
  let diffs := seq2 osub (shift_bwd v) (shift_fwd v) in
  dropna time x v [seq oscale (2%:R * dt)^-1 r | r <- diffs].

(** ** xframe, lines 27-73.  [round] is [np.round]; [None] for [v], [a] is Python's. *)
Record frame := Frame { f_time : seq R; f_dt : R; f_x : seq row; f_v : option (seq row); f_a : option (seq row) }.

Definition xframe (round : R -> int) (x : seq row) (time : seq R) (v a : option (seq row))
    (fix_time : bool) (round_time dt : R) : res frame :=
  let first_step := (let! t1 := rd time 1 in let! t0 := rd time 0 in Ok (t1 - t0)) in
  let! td :=
    (if fix_time then
       let! dt := (if dt < 0 then
                     let! s := first_step in
                     let! _ := guard (round_time != 0) ZeroDivision in
                     Ok ((round (s / round_time))%:~R * round_time)
                   else Ok dt) in
       (* np.linspace(0, dt*(n-1), n) *)
       let n := size x in
       let time := mkseq (fun i => i%:R * (dt * (n.-1)%:R / (n.-1)%:R)) n in
       let! time := wr time 1 dt in
       Ok (time, dt)
     else
       let! s := first_step in Ok (time, s)) in
  let! _ := guard (size td.1 == size x) ValueError in
  let! _ := guard (if v is Some v' then size v' == size x else true) ValueError in
  if a is Some a' then
    (* ds[["x", "v"]] *)
    let! _ := guard (isSome v) KeyError in
    let! _ := guard (size a' == size x) ValueError in
    Ok (Frame td.1 td.2 x v a)
  else Ok (Frame td.1 td.2 x v None).

End Frames.

(** ** Histogram, lines 173-212 (one-dimensional data, integer [bins], [hist=True]).
    pandas bins are open on the left; a trajectory with no sample in any bin is an error. *)
Section Histogram.
Variable R : realFieldType.

Definition linspace (a b : R) (n : nat) : seq R := mkseq (fun i => a + i%:R * ((b - a) / (n.-1)%:R)) n.

Definition in_bin (e : seq R) (i : nat) (x : R) : bool := (e`_i < x) && (x <= e`_i.+1).

Definition count_bins (e : seq R) (t : seq R) : res (seq nat) :=
  let c := mkseq (fun i => count (in_bin e i) t) (size e).-1 in
  let! _ := guard (has (fun n => 0 < n)%N c) ValueError in Ok c.

Definition hist_1d (trajs : seq (seq R)) (bins : nat) : res (seq R * seq R) :=
  match flatten trajs with
  | [::] => Err ValueError
  | x :: l =>
      let! _ := guard (all (fun t => (0 < size t)%N) trajs) ValueError in
      let lo := foldl Num.min x l in
      let hi := foldl Num.max x l in
      let e := linspace lo hi bins in
      (* pandas.cut: edges must increase strictly, at least one bin *)
      let! _ := guard ((1 < bins)%N && (lo < hi)) ValueError in
      let! cs := mapM (count_bins e) trajs in
      let c := foldl (fun acc c => mkseq (fun i => (nth 0 acc i + nth 0 c i)%N) bins.-1) (nseq bins.-1 0%N) cs in
      let tot := sumn c in
      let pf := [seq k%:R / tot%:R | k <- c] in
      let xfa := mkseq (fun i => (e`_i.+1 + e`_i) / 2%:R) bins.-1 in
      Ok (xfa, pf)
  end.

End Histogram.
