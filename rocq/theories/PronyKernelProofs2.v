(** * Proofs for the Prony series of a whole kernel: round trip, shifted times, other entry points. *)
From Coq Require Import String.
From mathcomp Require Import all_ssreflect all_algebra.
From mathcomp Require Import complex.
From Verif Require Import Base EstimatorProofs Prony PronyEval PronyEvalSpec PronyEvalProofs2 PronyEvalProofs3 FitMemory PronyKernel PronyKernelProofs.
Set Implicit Arguments.
Unset Strict Implicit.
Unset Printing Implicit Defensive.
Import Order.TTheory GRing.Theory Num.Theory.
Local Open Scope ring_scope.

Local Lemma bindOk (A B : Type) (a : A) (f : A -> res B) : bind (Ok a) f = f a.
Proof. by []. Qed.

Section Kernel.
Variable R : rcfType.
Local Notation C := R[i].
Variables (lg : C -> C) (tol eps : R).
Variable svd : forall n, 'M[R]_n.+1 -> 'M[R]_n.+1 * seq R * 'M[R]_n.+1.
Variable eig : forall n, 'M[R]_n -> bool * seq (eigen R).
Variable expm : forall m, 'M[R]_m -> 'M[R]_m.
Local Notation fserie data dt thres nk := (fit_serie lg tol eps svd eig data dt thres nk true).
Local Notation fkernel := (fit_kernel lg tol eps svd eig).

(** Components fitted one by one. *)
Lemma fit_components times (K : kernel R) thres nk L : (1 < size times)%N ->
  fkernel times K thres nk = Ok L <->
  exists2 F, L = table (k_x K) (k_basis K) F
    & forall d k, (d < k_x K)%N -> (k < k_basis K)%N ->
        fserie (k_val K k d) (times`_1 - times`_0) thres nk = Ok (F d k).
Proof.
move=> st; rewrite fit_kernelE //; set dt := _ - _.
set f := fun d => mapM _ _; split.
  case E: (mapM f _) => [r|//]; rewrite bindOk => -[<-].
  pose d0 : series R := (0, existT (fun m => 'M[R]_m) 0%N 0).
  have Er d : (d < k_x K)%N -> f d = Ok (nth [::] r d).
    by move=> ld; have := mapM_nth 0%N [::] E; rewrite size_iota => /(_ _ ld); rewrite nth_iota.
  have sr : size r = k_x K by rewrite (mapM_size E) size_iota.
  exists (fun d k => nth d0 (nth [::] r d) k) => [|d k ld lk].
    apply: (@eq_from_nth _ [::]) => [|d]; rewrite ?table_size size_map sr // => ld.
    rewrite table_row // (nth_map [::]) ?sr //.
    have sd : size (nth [::] r d) = k_basis K by rewrite (mapM_size (Er d ld)) size_iota.
    apply: (@eq_from_nth _ None) => [|k]; rewrite !size_map ?size_iota sd // => lk.
    by rewrite (nth_map d0) ?sd // (nth_map 0%N) ?size_iota // nth_iota.
  by have := mapM_nth 0%N d0 (Er d ld); rewrite size_iota => /(_ _ lk); rewrite nth_iota.
case=> F -> H; rewrite (@mapM_ok _ _ _ (fun d => [seq F d k | k <- iota 0 (k_basis K)])).
  by rewrite bindOk /table -map_comp; congr Ok; apply: eq_map => d /=; rewrite -map_comp.
move=> d /In_mem; rewrite mem_iota /= add0n => ld.
by apply: mapM_ok => k /In_mem; rewrite mem_iota /= add0n => lk; exact: H.
Qed.

(** One component that cannot be fitted is enough. *)
Lemma fit_fails times (K : kernel R) thres nk d k e : (1 < size times)%N -> (d < k_x K)%N -> (k < k_basis K)%N ->
  fserie (k_val K k d) (times`_1 - times`_0) thres nk = Err e -> exists e', fkernel times K thres nk = Err e'.
Proof.
move=> st ld lk Ee; case E: (fkernel _ _ _ _) => [L|e']; last by exists e'.
by have [F _ /(_ _ _ ld lk)] := (fit_components K thres nk L st).1 E; rewrite Ee.
Qed.

(** The fit sees the times only through their step. *)
Lemma fit_shift c times (K : kernel R) thres nk : fkernel [seq c + t | t <- times] K thres nk = fkernel times K thres nk.
Proof.
case: (ltnP 1%N (size times)) => st; last by rewrite !fit_kernel_short ?size_map.
have E : [seq c + t | t <- times]`_1 - [seq c + t | t <- times]`_0 = times`_1 - times`_0.
  by rewrite !(nth_map 0) ?(ltnW st) // opprD addrACA subrr add0r.
rewrite fit_kernelE; last by rewrite size_map.
rewrite [RHS]fit_kernelE; last by [].
by rewrite E.
Qed.

(** From components that are given back to a kernel that is. *)
Lemma round_trip ts times (K : kernel R) thres nk (g : nat -> nat -> seq R) :
  (1 < size times)%N -> size ts != 1%N -> (0 < k_x K)%N ->
  (forall d k, (d < k_x K)%N -> (k < k_basis K)%N -> exists s,
     fserie (k_val K k d) (times`_1 - times`_0) thres nk = Ok s /\ series_eval expm ts s.1 s.2 = Ok (g d k)) ->
  exists L K', [/\ fkernel times K thres nk = Ok L, kernel_eval expm ts L = Ok K', k_x K' = k_x K, k_basis K' = k_basis K
    & forall d k, (d < k_x K)%N -> (k < k_basis K)%N -> k_val K' k d = g d k].
Proof.
move=> st s1 dx H; pose d0 : series R := (0, existT (fun m => 'M[R]_m) 0%N 0).
pose F d k := if fserie (k_val K k d) (times`_1 - times`_0) thres nk is Ok s then s else d0.
have HF d k : (d < k_x K)%N -> (k < k_basis K)%N ->
    fserie (k_val K k d) (times`_1 - times`_0) thres nk = Ok (F d k) /\ series_eval expm ts (F d k).1 (F d k).2 = Ok (g d k).
  by move=> ld lk; have [s [E1 E2]] := H d k ld lk; rewrite /F E1.
have [K' E' [e1 e2 e3]] := @eval_ok _ expm ts _ _ F g s1 dx (fun d k ld lk => (HF d k ld lk).2).
exists (table (k_x K) (k_basis K) F), K'; split=> //.
by apply/fit_components => //; exists F => // d k ld lk; exact: (HF d k ld lk).1.
Qed.

(** memory_fit_kernel with the type prony, and its evaluation. *)
Variable curve_fit : func -> seq R -> seq R -> nat -> seq R.
Variable feval : func -> seq R -> R -> R.

Definition prony_fit thres nk (ts data : seq R) : res (series R) := fserie data (ts`_1 - ts`_0) thres nk.
Definition prony_eval (s : series R) (ts : seq R) : res (seq R) := series_eval expm ts s.1 s.2.

Lemma memory_fit_prony (t : times R) K thres nk : (1 < size (t_val t))%N ->
  memory_fit_kernel curve_fit (prony_fit thres nk) t K "prony"
  = let! L := fkernel (t_val t) K thres nk in Ok ("prony"%string, map (map (omap (@PronyP R (series R)))) L).
Proof.
move=> st; rewrite fit_kernelE // /memory_fit_kernel.
set f := fun d => mapM _ _.
pose g d k := let! s := fserie (k_val K k d) ((t_val t)`_1 - (t_val t)`_0) thres nk in Ok (@PronyP R (series R) s).
have eb : forall d k (L : seq (seq (option (params R (series R))))),
    (let! f := memory_fit curve_fit (prony_fit thres nk) (squeeze t) (k_val K k d) "prony" in set2 L d k (Some f.2))
    = body g d k L.
  move=> d k L; rewrite /memory_fit /= ltnNge st /= /body /g /prony_fit.
  by case: (fserie _ _ _ _).
have forM_eq S l (b1 b2 : nat -> S -> res S) : (forall i x, b1 i x = b2 i x) -> forall x, forM l b1 x = forM l b2 x.
  by move=> e; elim: l => //= i l IH x; rewrite e; case: (b2 i x) => //= y.
rewrite (_ : for_ _ _ _ _ = for_ 0 (k_x K) (fun d L => for_ 0 (k_basis K) (body g d) L) (nseq (k_x K) (nseq (k_basis K) None))); last first.
  by apply: (forM_eq) => d L; apply: (forM_eq) => k L'; exact: eb.
rewrite fill // subnn.
have mm (l : seq nat) d : mapM (g d) l = let! r := mapM (fun k => fserie (k_val K k d) ((t_val t)`_1 - (t_val t)`_0) thres nk) l in
    Ok (map (@PronyP R (series R)) r).
  elim: l => //= k l IH; rewrite IH /g; case: (fserie _ _ _ _) => //= s.
  by case: (mapM _ l).
have -> : mapM (fun d => mapM (g d) (iota 0 (k_basis K))) (iota 0 (k_x K))
    = let! r := mapM f (iota 0 (k_x K)) in Ok (map (map (@PronyP R (series R))) r).
  elim: (iota 0 (k_x K)) => //= d l IH; rewrite IH mm /f; case: (mapM _ (iota _ _)) => //= a.
  by case: (mapM _ l).
case: (mapM f _) => //= r; rewrite cats0; congr (Ok (_, _)); rewrite -!map_comp.
by apply: eq_map => row /=; rewrite -!map_comp.
Qed.

End Kernel.
