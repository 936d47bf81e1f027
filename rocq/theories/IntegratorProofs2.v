(** * Time integration: agreement with the noise extraction, BGLE memory, witnesses. *)
From mathcomp Require Import all_ssreflect all_algebra.
From mathcomp Require Import zify.
From Verif Require Import Base Tactics FKernel Quadrature MemorySpec FKernelProofs VolterraMain Integrator IntegratorProofs.
Set Implicit Arguments.
Unset Strict Implicit.
Unset Printing Implicit Defensive.
Import Order.TTheory GRing.Theory Num.Theory.
Local Open Scope ring_scope.

Section Agreement.
Variables (R : realFieldType) (d N : nat).
Implicit Types (K : seq 'M[R]_(N, d)) (E : seq 'rV[R]_N).

Lemma memory_of_take (dt : R) K E i : (i < size E)%N ->
  memory_of dt K (take i.+1 E) = trapz_rule dt (mem_integrand E K i) (minn i (size K).-1).
Proof.
move=> li; rewrite /memory_of size_takel //=; congr (_ *: _); apply: eq_bigr => -[j /= lj] _.
by congr (_ *: (_ + _)); rewrite /mem_integrand nth_take //; slia.
Qed.

(** Memory of the extracted noise and memory of the integrator. *)
Lemma noise_memory (dt : R) K E mem i : (0 < size K)%N -> (0 < i < size E)%N ->
  memory_trapz dt K E = Ok mem ->
  mem`_i = - (memory_of dt K (take i.+1 E)
              + (if ((size K).-1 < i)%N then dt *: (E`_(i - (size K).-1) *m K`_(size K).-1) else 0)).
Proof.
move=> k0 ri Em; have [|mem' Em' [_ _ H]] := memory_trapz_main dt (E := E) k0; first by slia.
have -> : mem = mem' by move: Em; rewrite Em' => -[].
by rewrite H // memory_of_take //; slia.
Qed.
End Agreement.

(** ** BGLE *)
Section BGLE.
Variables (R : realFieldType) (K : seq R) (dt : R).
Implicit Types v : seq R.

(** Trapezoid rule for the memory at the time of the last velocity. *)
Definition scalar_memory (s : seq R) : R :=
  trapz_rule (V := [lmodType R of R^o]) dt (fun j => K`_j * s`_((size s).-1 - j)) (minn (size s).-1 (size K).-1).

Lemma scalar_memoryE v e : (0 < size v)%N -> (1 < size K)%N ->
  scalar_memory (rcons v e) =
  2^-1 * dt * (K`_0 * e) + dt * (\sum_(1 <= j < minn (size v) (size K).-1) K`_j * v`_(size v - j))
  + 2^-1 * dt * (K`_(minn (size v) (size K).-1) * v`_(size v - minn (size v) (size K).-1)).
Proof.
move=> v0 k1; rewrite /scalar_memory trapz_ruleE size_rcons /=; last by slia.
rewrite subn0 nth_rcons ltnn eqxx; set n := minn _ _.
congr (_ + _ + _); last by rewrite nth_rcons ifT //; slia.
congr (_ * _); apply: eq_big_nat => j rj; congr (_ * _); rewrite nth_rcons ifT //; slia.
Qed.

(** The entries of the integrand: zero before the start of the trajectory. *)
Definition past v j : R := if (j <= size v)%N then v`_(size v - j) else 0.

Lemma bgle_memE v : (0 < size v)%N -> (1 < size K)%N ->
  bgle_mem K dt v =
  Ok ((2^-1 * (K`_(size K).-1 * past v (size K).-1) + \sum_(1 <= j < (size K).-1) K`_j * past v j) * dt).
Proof.
move=> v0 k1; rewrite /bgle_mem.
set w := if _ then _ else _.
have [sw Hw] : ((size K).-1 <= size w)%N /\ forall j, (0 < j < size K)%N -> w`_(size w - j) = past v j.
  rewrite /w /past; case: ltnP => lt.
    rewrite size_cat size_nseq; split; first by slia.
    move=> j rj; rewrite nth_cat size_nseq; case le: (j <= size v)%N.
      by rewrite ifF; [congr (nth _ _ _); slia | slia].
    by rewrite ifT ?nth_nseq ?if_same //; slia.
  split; first by slia.
  by move=> j rj; rewrite ifT //; slia.
have s1 : size (drop (size w - (size K).-1) w) = (size K).-1 by rewrite size_drop; slia.
rewrite size_rev s1 eqxx /=.
have -> : [seq p.1 * p.2 | p <- zip (behead K) (rev (drop (size w - (size K).-1) w))]
        = mkseq (fun i => K`_i.+1 * past v i.+1) (size K).-1.
  apply: (@eq_from_nth _ 0); first by rewrite size_map size_zip size_mkseq size_rev s1 size_behead minnn.
  move=> i; rewrite size_map size_zip size_rev s1 size_behead minnn => li.
  rewrite (nth_map (0, 0)) ?size_zip ?size_rev ?s1 ?size_behead ?minnn // nth_zip ?size_rev ?s1 ?size_behead //=.
  rewrite nth_mkseq // nth_behead nth_rev ?s1 // nth_drop -Hw; last by slia.
  by congr (_ * nth _ _ _); slia.
rewrite size_mkseq; case Ek : (size K).-1 => [|n]; first by slia.
rewrite (rdE 0) ?size_mkseq //= nth_mkseq //; congr (Ok ((_ + _) * _)).
rewrite /mkseq -map_take take_iota big_map (minn_idPl (leqnSn n)).
by rewrite big_add1 /= /index_iota subn0.
Qed.

(** Half a weight too much on the first velocity until the trajectory is as long as the
    kernel. *)
Lemma bgle_memory v e : (0 < size v)%N -> (1 < size K)%N ->
  exists2 r, bgle_mem K dt v = Ok r &
    r + 2^-1 * dt * (K`_0 * e)
    = scalar_memory (rcons v e)
      + (if (size v < (size K).-1)%N then 2^-1 * dt * (K`_(size v) * v`_0) else 0).
Proof.
move=> v0 k1; rewrite bgle_memE //; eexists; first reflexivity.
rewrite scalar_memoryE // mulrDl.
set Z := 2^-1 * dt * (K`_0 * e).
nsize; have perm (a b c : R) : a + b + c = c + b + a by abel.
rewrite perm -!addrA; congr (_ + _).
have low n : (n <= size v)%N -> \sum_(1 <= j < n) K`_j * past v j = \sum_(1 <= j < n) K`_j * v`_(size v - j).
  by move=> le; apply: eq_big_nat => j rj; rewrite /past ifT //; slia.
case: ltnP => lt; last first.
  rewrite addr0 [_ * dt]mulrC low //; congr (_ + _).
  by rewrite /past lt mulrAC.
have -> : past v (size K).-1 = 0 by rewrite /past ifF //; slia.
rewrite !mulr0 mul0r addr0 subnn.
rewrite (@big_cat_nat _ _ _ (size v)) /=; [|slia|slia].
rewrite low // [X in _ + X]big_ltn // [X in _ + (_ + X)]big_nat_cond.
rewrite [X in _ + (_ + X)]big1 ?addr0; last first.
  by move=> j /andP[rj _]; rewrite /past ifF ?mulr0 //; slia.
rewrite mulrDl [_ * dt]mulrC; congr (_ + _).
rewrite /past leqnn subnn -mulrDl -mulrDl mulrC; congr (_ * _).
by rewrite -[X in _ = (X + X) * _](mul1r 2^-1) -splitr mul1r.
Qed.

End BGLE.
