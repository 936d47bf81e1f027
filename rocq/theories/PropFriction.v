(** * C80: integrals of the kernel (fit_memory.py:29-40, models.py:348-363). *)
From mathcomp Require Import all_ssreflect all_algebra zify.
From Coq Require Import String.
From Verif Require Import Base Tactics FitMemory PronyKernelProofs Friction FrictionProofs.
Set Implicit Arguments.
Unset Strict Implicit.
Unset Printing Implicit Defensive.
Import Order.TTheory GRing.Theory Num.Theory.
Local Open Scope ring_scope.

Lemma mapM_okE (A B : eqType) (f : A -> res B) (g : A -> B) (l : seq A) :
  (forall a, a \in l -> f a = Ok (g a)) -> mapM f l = Ok (map g l).
Proof.
elim: l => //= a l IH H; rewrite H ?mem_head //= IH // => b bl.
by apply: H; rewrite inE bl orbT.
Qed.

Section C80.
Variable R : realFieldType.
Implicit Types (x : seq R) (P : {poly R}).

(** The quadrature integrates quadratic functions exactly between the first and the last time,
    whatever the (increasing) times; two samples only give the trapezoid. *)
Theorem C80_simpson x P :
  sorted <%R x -> (0 < size x)%N -> (size P <= if size x == 2 then 3 else 4)%N ->
  simpson [seq P^`().[t] | t <- x] x = Ok (P.[last 0 x] - P.[head 0 x]).
Proof.
move=> s x0 sP; rewrite /simpson size_map eqxx /= -nth_last -nth0 -/(sampled P x).
have sP4 : (size P <= 4)%N by apply: leq_trans sP _; case: ifP.
have [o|e] := boolP (odd (size x)).
  rewrite basic_exact //; last by move: o; clear; lia.
  by congr (Ok (_.[_`__] - _)); move: o; clear; lia.
have E2 : size x = 2%N \/ (3 < size x)%N by move: x0 e; clear; lia.
case: E2 => [E|l3].
  move: sP; rewrite E /= => sP; have [EP ED] := poly4 (leqW sP).
  rewrite !nth_sampled ?E // !EP !ED /Q /q; have -> : P`_3 = 0 by apply: nth_default.
  have -> : P`_2 = P`_2 * 1 by rewrite mulr1.
  rewrite !mulr0 !mul0r !addr0 mulr1; move: (x`_0) (x`_1) (P`_0) (P`_1) (P`_2) => a b c d f.
  by congr Ok; apply: trapz_alg.
have -> : (size x == 2)%N = false by move: l3; clear; lia.
case E: (size x) l3 e x0 => [//|[//|[//|m]]] l3 e _.
have -> : (m.+3 - 3 = m)%N by clear; lia.
have -> : (m.+3 - 2 = m.+1)%N by clear; lia.
have -> : (m.+3 - 1 = m.+2)%N by clear; lia.
have [EP ED] := poly4 sP4.
rewrite basic_exact //; last by rewrite E; move: e; clear; lia.
have -> : (2 * (m.+3)./2.-1 = m.+1)%N by move: e; clear; lia.
have l0 : (m < size x)%N by rewrite E ltnS ltnW.
have l1 : (m.+1 < size x)%N by rewrite E.
have l2 : (m.+2 < size x)%N by rewrite E.
rewrite !nth_sampled // !ED (last_exact P`_0) ?sorted_step // -!EP /=.
by rewrite addrC addrA subrK.
Qed.

(** Cubic functions as well, for an odd number of equally spaced times. *)
Theorem C80_simpson_uniform P (t0 h : R) n :
  (size P <= 5)%N -> 0 < h ->
  let x := mkseq (fun i => t0 + i%:R * h) (2 * n + 1) in
  simpson [seq P^`().[t] | t <- x] x = Ok (P.[t0 + (2 * n)%:R * h] - P.[t0]).
Proof.
move=> sP h0 x; rewrite -/(sampled P x) /simpson.
have -> : size (sampled P x) = (2 * n + 1)%N by rewrite size_map size_mkseq.
rewrite size_mkseq eqxx /=.
have -> : odd (2 * n + 1) by clear; lia.
have -> : ((2 * n + 1)./2 = n)%N by clear; lia.
rewrite basic_cubic // ?addn1 //; congr (Ok (_.[_] - _.[_])); rewrite nth_mkseq ?addn1 //.
by rewrite mul0r addr0.
Qed.

(** The friction of a kernel: one value per component, stored by dimension, then by basis function;
    it is the integral of the component when that is quadratic in time. *)
Theorem C80_friction (t : times R) (K : kernel R) (P : nat -> nat -> {poly R}) :
  sorted <%R (t_val t) -> (0 < size (t_val t))%N ->
  (forall k d, (k < k_basis K)%N -> (d < k_x K)%N ->
     (size (P k d) <= if size (t_val t) == 2 then 3 else 4)%N /\ k_val K k d = [seq (P k d)^`().[s] | s <- t_val t]) ->
  exists l popt, [/\ markovian_friction t K = Ok (l, popt), size popt = k_x K
    & forall d, (d < k_x K)%N -> size (nth [::] popt d) = k_basis K /\
        forall k, (k < k_basis K)%N ->
          nth None (nth [::] popt d) k = Some ((P k d).[last 0 (t_val t)] - (P k d).[head 0 (t_val t)])].
Proof.
move=> s t0 H.
pose g d k := (P k d).[last 0 (t_val t)] - (P k d).[head 0 (t_val t)].
have E : mapM (fun d => mapM (fun k => simpson (k_val K k d) (t_val t)) (iota 0 (k_basis K))) (iota 0 (k_x K))
    = Ok [seq [seq g d k | k <- iota 0 (k_basis K)] | d <- iota 0 (k_x K)].
  apply: mapM_okE => d; rewrite mem_iota add0n => /andP[_ ld].
  apply: mapM_okE => k; rewrite mem_iota add0n => /andP[_ lk].
  by have [sP ->] := H k d lk ld; exact: C80_simpson.
exists BuiltinType, [seq [seq Some (g d k) | k <- iota 0 (k_basis K)] | d <- iota 0 (k_x K)].
rewrite /markovian_friction (fill (fun d k => simpson (k_val K k d) (t_val t))) // E /= subnn cats0 -map_comp.
split=> [||d ld]; [|by rewrite size_map size_iota|].
  by congr (Ok (_, _)); apply: eq_map => d /=; rewrite -map_comp.
rewrite (nth_map 0%N) ?size_iota // nth_iota // add0n; split=> [|k lk]; first by rewrite size_map size_iota.
by rewrite (nth_map 0%N) ?size_iota // nth_iota.
Qed.

(** Whatever the data: the value of each component is its quadrature, and lengths that do not match
    are refused. *)
Theorem C80_friction_mismatch (t : times R) (K : kernel R) :
  (0 < k_basis K)%N -> (0 < k_x K)%N -> size (k_val K 0 0) <> size (t_val t) ->
  markovian_friction t K = Err ValueError.
Proof.
move=> k0 x0 ne; rewrite /markovian_friction (fill (fun d k => simpson (k_val K k d) (t_val t))) //.
case: (k_x K) x0 => // nx _; case: (k_basis K) k0 => // nb _ /=.
by rewrite /simpson (introF eqP) //; apply/nesym.
Qed.

(** Not a name: the first value returned is the builtin [type], so that the pair cannot be given to
    memory_kernel_eval. *)
Theorem C80_friction_label_refuted : exists t K l popt,
  markovian_friction t K = Ok (l, popt) /\ (forall s : string, l <> Name s) /\ popt = [:: [:: Some (4%:R / 3%:R : R)]].
Proof.
exists (Times true [:: 0; 1; 2%:R]), (Kern 1 1 (fun _ _ => [:: 0; 1; 0])); do 2 eexists; split; last split.
- by reflexivity.
- by [].
- have e : 2%:R - 1 = 1 :> R by rewrite -(natrB R (isT : (1 <= 2)%N)).
  rewrite /= /basic_simpson big_ord1 /= /pair_simpson subr0 e !mul0r add0r addr0 mulr1 mul1r /div0 oner_eq0 divr1.
  rewrite -(natrD R 1 1) -natrM mulrAC -natrM; congr [:: [:: Some _]].
  by apply/eqP; rewrite eqr_div ?pnatr_eq0 // -!natrM.
Qed.

(** The asymptotic value of the running integral: when the second half of it is [a + b / t], every
    least-squares solution is [(a, b)]. *)
Theorem C80_asymptotic fit (t data : seq R) a b :
  sorted <%R t -> 0 <= head 0 t -> (2 < size t)%N -> size data = size t ->
  (forall i, (size t %/ 2 <= i < size t)%N ->
     \sum_(j < i) (t`_j.+1 - t`_j) * (data`_j + data`_j.+1) / 2%:R = a + b / t`_i) ->
  (forall xs ys p, (1 < size xs)%N ->
     \sum_(i < size xs) ((fit xs ys).1 + (fit xs ys).2 / xs`_i - ys`_i) ^+ 2 <= \sum_(i < size xs) (p.1 + p.2 / xs`_i - ys`_i) ^+ 2) ->
  asymptotic_fit_integral fit t data = Ok (a, b).
Proof.
move=> s t0 s2 sd H ls; rewrite /asymptotic_fit_integral sd eqxx; congr Ok.
set h := (size t %/ 2)%N; set xs := drop h t; set ys := drop h _.
have sx : size xs = (size t - h)%N by rewrite size_drop.
have hx i : (i < size xs)%N -> xs`_i = t`_(h + i) by rewrite nth_drop.
have hy i : (i < size xs)%N -> ys`_i = a + b / xs`_i.
  move=> li; rewrite hx // nth_drop nth_mkseq; last by move: li; rewrite sx; clear; lia.
  by rewrite -H //; move: li; rewrite sx -/h; clear; lia.
have l1 : (1 < size xs)%N by rewrite sx /h; move: s2; clear; lia.
have := ls xs ys (a, b) l1; rewrite [X in _ <= X]big1 => [|i _]; last by rewrite hy //= subrr expr0n.
case: (fit xs ys) => p q /= le0.
have Z i : (i < size xs)%N -> p + q / xs`_i = a + b / xs`_i.
  move=> li; have /eqP : \sum_(i < size xs) (p + q / xs`_i - ys`_i) ^+ 2 = 0.
    by apply/eqP; rewrite eq_le le0 sumr_ge0 // => j _; exact: sqr_ge0.
  rewrite psumr_eq0 => [/allP/(_ (Ordinal li) (mem_index_enum _))|j _]; last exact: sqr_ge0.
  by rewrite /= sqrf_eq0 subr_eq0 hy // => /eqP.
have h0 : (0 < h)%N by rewrite /h; move: s2; clear; lia.
have p0 : 0 < xs`_0.
  rewrite hx ?(ltnW l1) // addn0; apply: le_lt_trans t0 _; rewrite -nth0.
  have ht : (h < size t)%N by rewrite /h; move: s2; clear; lia.
  by apply: (sorted_ltn_nth lt_trans 0 s); rewrite ?inE // (ltn_trans h0).
have p1 : xs`_0 < xs`_1.
  rewrite !hx ?(ltnW l1) // addn0 addn1; apply: sorted_step => //.
  by move: l1; rewrite sx; clear; lia.
have n0 : xs`_0 != 0 by rewrite gt_eqF.
have n1 : xs`_1 != 0 by rewrite gt_eqF // (lt_trans p0).
have E0 := Z 0%N (ltnW l1); have E1 := Z 1%N l1.
have Eq : (q - b) * (xs`_0^-1 - xs`_1^-1) = 0.
  rewrite mulrBl !mulrBr -[q / xs`_0](addKr p) -[q / xs`_1](addKr p) E0 E1; abel.
have qb : q = b.
  move/eqP: Eq; rewrite mulf_eq0 !subr_eq0 => /orP[/eqP //|/eqP/invr_inj e].
  by rewrite e ltxx in p1.
by move: E0; rewrite qb => /addIr ->.
Qed.

(** The Laplace transform of a kernel stored by the estimator always fails: its coordinate is
    called time_kernel. *)
Theorem C80_laplace_fails ex (dt : R) trunc time_ker K s0 s1 n :
  (s1 = None -> dt != 0) ->
  laplace_transform_kernel ex dt trunc (Some (stored_kernel time_ker K)) s0 s1 n
  = match (if n is Some n then n else trunc) with
    | Negz _ => Err ValueError | Posz 0 => Ok ([::], [::]) | Posz _ => Err KeyError end.
Proof.
move=> dt0; rewrite /laplace_transform_kernel.
have -> : (if s1 is Some s then Ok s else if dt == 0 then Err ZeroDivision else Ok (1 / dt)) =
  Ok (if s1 is Some s then s else 1 / dt).
  by case: s1 dt0 => // /(_ erefl) /negbTE ->.
by rewrite /=; case: (if n is Some n then n else trunc) => [[|m]|m].
Qed.
End C80.
Print Assumptions C80_simpson.
Print Assumptions C80_simpson_uniform.
Print Assumptions C80_friction.
Print Assumptions C80_friction_mismatch.
Print Assumptions C80_friction_label_refuted.
Print Assumptions C80_asymptotic.
Print Assumptions C80_laplace_fails.

(** ** Examples *)
Section Example.
Variable R : realFieldType.
(** Unequal times 0, 1, 3, 4 and [t^2]: the integral is [64 / 3]. *)
Definition ex_poly : {poly R} := 3%:R^-1 *: 'X^3.
Example C80_example : [/\ sorted <%R [:: 0; 1; 3%:R; 4%:R : R], (size ex_poly <= 4)%N
  & simpson [seq ex_poly^`().[t] | t <- [:: 0; 1; 3%:R; 4%:R]] [:: 0; 1; 3%:R; 4%:R] = Ok (64%:R / 3%:R)].
Proof.
have s : sorted <%R [:: 0; 1; 3%:R; 4%:R : R] by rewrite /= ltr01 ltr1n ltr_nat.
have sz : (size ex_poly <= 4)%N by apply: leq_trans (size_scale_leq _ _) _; rewrite size_polyXn.
split=> //; rewrite C80_simpson //=; congr Ok.
by rewrite /ex_poly !hornerZ !hornerXn expr0n /= mulr0 subr0 -natrX mulrC.
Qed.
Example C80_friction_example : exists (t : times R) (K : kernel R) (P : nat -> nat -> {poly R}),
  [/\ sorted <%R (t_val t), (0 < size (t_val t))%N
    & forall k d, (k < k_basis K)%N -> (d < k_x K)%N ->
     (size (P k d) <= if size (t_val t) == 2 then 3 else 4)%N /\ k_val K k d = [seq (P k d)^`().[s] | s <- t_val t]]
  /\ (0 < k_basis K)%N /\ (1 < k_x K)%N.
Proof.
have [s sz _] := C80_example.
by exists (Times true [:: 0; 1; 3%:R; 4%:R]), (Kern 2 3 (fun _ _ => [seq ex_poly^`().[t] | t <- [:: 0; 1; 3%:R; 4%:R]])), (fun _ _ => ex_poly).
Qed.
Example C80_laplace_example ex : laplace_transform_kernel ex (1 : R) 3 (Some (stored_kernel [:: 0; 1; 2%:R] (Kern 1 1 (fun _ _ => [:: 4%:R; 2%:R; 1])))) 0 None None
  = Err KeyError.
Proof. by rewrite C80_laplace_fails // => _; exact: oner_neq0. Qed.
(** Times 0, 1, 2 and data 2, 2, 0: the running integral is 0, 2, 3, that is [4 - 2 / t] from the
    second time on. *)
Example C80_asymptotic_example (t := [:: 0; 1; 2%:R : R]) (data := [:: 2%:R; 2%:R; 0 : R]) :
  [/\ sorted <%R t, 0 <= head 0 t, (2 < size t)%N, size data = size t
    & forall i, (size t %/ 2 <= i < size t)%N ->
     \sum_(j < i) (t`_j.+1 - t`_j) * (data`_j + data`_j.+1) / 2%:R = 4%:R + - 2%:R / t`_i].
Proof.
have e : 2%:R - 1 = 1 :> R by rewrite -(natrB R (isT : (1 <= 2)%N)).
have n2 : (2%:R : R) != 0 by rewrite pnatr_eq0.
have h : (2%:R + 2%:R) / 2%:R = 2%:R :> R by rewrite -mulr2n -mulr_natr mulfK.
split=> // [|i]; first by rewrite /= ltr01 ltr1n.
case: i => [|[|[|i]]] //= _.
  by rewrite big_ord1 /= subr0 mul1r divr1 h -(natrB R (isT : (2 <= 4)%N)).
rewrite !big_ord_recr big_ord0 /= subr0 e !mul1r add0r addr0 mulNr divff // h.
by rewrite -mulrSr -(natrB R (isT : (1 <= 4)%N)).
Qed.
End Example.

(** False: the Laplace transform of an estimated kernel can be computed. *)
Theorem C80_laplace_refuted (R : realFieldType) ex : exists (dt : R) trunc time_ker K,
  [/\ 0 < dt, size time_ker = 3%N, size (k_val K 0 0) = 3%N
    & laplace_transform_kernel ex dt trunc (Some (stored_kernel time_ker K)) 0 None None = Err KeyError].
Proof.
by exists 1, 3%:Z, [:: 0; 1; 2%:R], (Kern 1 1 (fun _ _ => [:: 4%:R; 2%:R; 1])); split; rewrite ?ltr01 //; exact: C80_laplace_example.
Qed.
Print Assumptions C80_laplace_refuted.
