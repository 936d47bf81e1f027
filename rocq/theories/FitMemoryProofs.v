(** * Fitting memory kernels: specification and proofs. *)
From mathcomp Require Import all_ssreflect.
From mathcomp Require Import zify.
From Coq Require Import String.
From Verif Require Import Base FitMemory.
Set Implicit Arguments.
Unset Strict Implicit.
Unset Printing Implicit Defensive.
Local Open Scope string_scope.

(** The documented type names and the function each stands for. *)
Definition table : list (string * func) :=
  [:: ("exp", ExpF); ("exponential", ExpF); ("expnorm", ExpNormF); ("exp_norm", ExpNormF);
      ("doubleexpnorm", DoubleExpF); ("double_exp_norm", DoubleExpF); ("sech", SechF);
      ("sech_one", SechOneF); ("sech_two", SechTwoF); ("gaussian", GaussF)].
Definition names : list string := "prony" :: map fst table.

Arguments isin : simpl never.

Section Proofs.
Variables (R P : Type) (R0 : R).
Variable curve_fit : func -> seq R -> seq R -> nat -> seq R.
Variable prony_fit : seq R -> seq R -> res P.
Variable feval : func -> seq R -> R -> R.
Variable prony_eval : P -> seq R -> res (seq R).
Hypothesis curve_fit_size : forall f t d n, size (curve_fit f t d n) = n.

Notation mfit := (memory_fit curve_fit prony_fit).
Notation meval := (memory_fit_eval feval prony_eval).

Lemma isinP ty l : isin ty l <-> List.In ty l.
Proof.
elim: l => [|x l IH] //=; rewrite /isin /= -/(isin ty l); split.
  by case/orP => [/String.eqb_eq ->|/IH]; [left|right].
by case=> [->|/IH ->]; rewrite ?orbT // String.eqb_refl.
Qed.

Lemma isin_In ty l : isin ty l -> List.In ty l.
Proof. exact: (isinP ty l).1. Qed.

Lemma unknown ty t data (p : params R P) : ~ List.In ty names ->
  mfit t data ty = Err ValueError /\ meval t ty p = Err ValueError.
Proof.
move=> /= H.
have no l : List.incl l names -> isin ty l = false.
  by move=> inc; apply/negbTE/negP => /isin_In/inc.
by rewrite /memory_fit /memory_fit_eval !no // => x /=; intuition.
Qed.

Lemma fit_eval ty t data ty' p : mfit t data ty = Ok (ty', p) ->
  ty' = ty /\
  ((exists f, [/\ List.In (ty, f) table, p = Popt P (curve_fit f (t_val t) data (arity f))
     & meval t ty p = Ok (Times (t_flat t) (map (feval f (curve_fit f (t_val t) data (arity f))) (t_val t)))])
   \/ (exists q, [/\ ty = "prony", prony_fit (t_val t) data = Ok q, p = PronyP R q
        & meval t ty p = let! v := prony_eval q (t_val t) in Ok (Times true v)])).
Proof.
rewrite /memory_fit /memory_fit_eval /=.
case: ifP => [/isin_In H|_].
  case: ifP => // _ [<- <-]; split=> //; left; exists ExpF; split=> //; last by rewrite /call curve_fit_size.
  by case: H => [<-|[<-|[]]]; rewrite /table /=; tauto.
case: ifP => [/isin_In H|_].
  case: ifP => // _ [<- <-]; split=> //; left; exists ExpNormF; split=> //; last by rewrite /call curve_fit_size.
  by case: H => [<-|[<-|[]]]; rewrite /table /=; tauto.
case: ifP => [/isin_In H|_].
  case: ifP => // _ [<- <-]; split=> //; left; exists DoubleExpF; split=> //; last by rewrite /call curve_fit_size.
  by case: H => [<-|[<-|[]]]; rewrite /table /=; tauto.
case: ifP => [/isin_In H|_].
  case: ifP => // _ [<- <-]; split=> //; left; exists SechF; split=> //; last by rewrite /call curve_fit_size.
  by case: H => [<-|[]]; rewrite /table /=; tauto.
case: ifP => [/isin_In H|_].
  case: ifP => // _ [<- <-]; split=> //; left; exists SechOneF; split=> //; last by rewrite /call curve_fit_size.
  by case: H => [<-|[]]; rewrite /table /=; tauto.
case: ifP => [/isin_In H|_].
  case: ifP => // _ [<- <-]; split=> //; left; exists SechTwoF; split=> //; last by rewrite /call curve_fit_size.
  by case: H => [<-|[]]; rewrite /table /=; tauto.
case: ifP => [/isin_In H|_].
  case: ifP => // _ [<- <-]; split=> //; left; exists GaussF; split=> //; last by rewrite /call curve_fit_size.
  by case: H => [<-|[]]; rewrite /table /=; tauto.
case: ifP => [/isin_In H|_] //; case: ifP => // _.
case E: (prony_fit _ _) => [q|e] //= [<- <-]; split=> //; right; exists q; split=> //.
by case: H.
Qed.

(** Every documented type is fitted, flat times or a column. *)
Lemma fit_total ty f t data : List.In (ty, f) table -> (1 < size (t_val t)) -> (0 < size data) ->
  mfit t data ty = Ok (ty, Popt P (curve_fit f (t_val t) data (arity f))).
Proof.
move=> H t1 d0; have dn : (size data == 0) = false by case: (data) d0.
have tn : (size (t_val t) < 2) = false by rewrite ltnNge t1.
by move: H; rewrite /table /memory_fit /= dn tn /=; do 10?[case=> [[<- <-] //|]].
Qed.

(** Kernels. *)
Notation mfitk := (memory_fit_kernel curve_fit prony_fit).
Notation mevalk := (memory_kernel_eval R0 feval prony_eval).

Definition at2 (popt : seq (seq (option (params R P)))) d k := nth None (nth [::] popt d) k.

Lemma set2P (T : Type) (x0 : T) (a b : seq (seq T)) i j x : set2 a i j x = Ok b ->
  [/\ size b = size a, forall d, size (nth [::] b d) = size (nth [::] a d)
    & forall d k, nth x0 (nth [::] b d) k = if (d == i) && (k == j) then x else nth x0 (nth [::] a d) k].
Proof.
rewrite /set2; case Er: (rd a i) => [r|e] //=; case Ew: (wr r j x) => [r'|e] //= Eb.
have [li Ea] := rd_ok [::] Er; have [lj sr Hr] := wr_ok x0 Ew; have [_ sb Hb] := wr_ok [::] Eb.
split=> // [d|d k]; rewrite Hb; case: eqP => // ->; first by rewrite sr Ea.
by rewrite Hr Ea.
Qed.

Lemma fit_kernelP t K ty ty' popt : mfitk t K ty = Ok (ty', popt) ->
  [/\ ty' = ty, size popt = k_x K, forall d, d < k_x K -> size (nth [::] popt d) = k_basis K
    & forall d k, d < k_x K -> k < k_basis K ->
        exists2 p, mfit t (k_val K k d) ty = Ok (ty, p) & at2 popt d k = Some p].
Proof.
rewrite /memory_fit_kernel; case E: (for_ _ _ _ _) => [q|e] //= [<- <-].
pose good q (d k : nat) := exists2 p, mfit t (k_val K k d) ty = Ok (ty, p) & at2 q d k = Some p.
pose shape (q : seq (seq (option (params R P)))) :=
  size q = k_x K /\ forall d, d < k_x K -> size (nth [::] q d) = k_basis K.
pose Inv D q := shape q /\ forall d k, d < D -> k < k_basis K -> good q d k.
have : Inv (k_x K) q.
  apply: (for_inv (P := Inv) _ _ _ E) => //.
    split; last by []; split; first by rewrite size_nseq.
    by move=> d ld; rewrite nth_nseq ld size_nseq.
  move=> d q1 q2 rd [s1 H1] E1.
  pose Inv2 k' q := shape q /\ forall d' k, (d' < d) || ((d' == d) && (k < k')) -> k < k_basis K -> good q d' k.
  have : Inv2 (k_basis K) q2.
    apply: (for_inv (P := Inv2) _ _ _ E1) => //.
      by split=> // d' k; rewrite ltn0 andbF orbF; exact: H1.
    move=> k q3 q4 rk [[s3 s3'] H3].
    case Ef: (memory_fit _ _ _ _ _) => [[ty1 p1]|e] //= /(set2P None)[s4 s4' H4].
    have Ety : ty1 = ty by case: (fit_eval Ef).
    split; first by split=> [|d' ld']; [rewrite s4|rewrite s4' s3'].
    move=> d' k' c lk'; case: (boolP ((d' == d) && (k' == k))) => [/andP[/eqP -> /eqP ->]|ne].
      by exists p1; [rewrite -Ety in Ef * | rewrite /at2 H4 !eqxx].
    have [||p Ep Hp] := H3 d' k' => //.
      case/orP: c => [->//|/andP[/eqP e]]; rewrite e eqxx ltnn /= ltnS leq_eqVlt in ne *.
      by rewrite (negPf ne).
    by exists p => //; rewrite /at2 H4 (negPf ne).
  case=> s2 H2; split=> // d' k; rewrite ltnS leq_eqVlt => c lk; apply: H2 => //.
  by case/orP: c => [/eqP ->|->//]; rewrite eqxx lk orbT.
by case=> [[s1 s2] H]; split.
Qed.

Lemma kernel_round_trip t K ty ty' popt : t_flat t -> 0 < k_x K ->
  mfitk t K ty = Ok (ty', popt) ->
  (forall k d q, k < k_basis K -> d < k_x K -> ty = "prony" -> prony_fit (t_val t) (k_val K k d) = Ok q ->
     exists v, prony_eval q (t_val t) = Ok v) ->
  exists2 fit, mevalk t ty' popt = Ok fit &
    [/\ k_basis fit = k_basis K, k_x fit = k_x K
      & forall k d, k < k_basis K -> d < k_x K ->
          exists p r, [/\ mfit t (k_val K k d) ty = Ok (ty', p), meval t ty' p = Ok r & k_val fit k d = t_val r]].
Proof.
move=> tf dx Ek Hv; have [-> sp sr Hp] := fit_kernelP Ek.
have ev p k d : k < k_basis K -> d < k_x K -> mfit t (k_val K k d) ty = Ok (ty, p) -> exists2 r, meval t ty p = Ok r & t_flat r.
  move=> lk ld /fit_eval[_ [[f [_ _ E]]|[q [e1 e2 _ E]]]]; first by eexists; first exact: E.
  by have [v Ev] := Hv k d q lk ld e1 e2; rewrite Ev in E; eexists; first exact: E.
rewrite /memory_kernel_eval (rdE [::]) ?sp //= sr //.
pose good (fit : nat -> nat -> seq R) d k := exists p r, [/\ mfit t (k_val K k d) ty = Ok (ty, p), meval t ty p = Ok r & fit k d = t_val r].
pose Inv D fit := forall d k, d < D -> k < k_basis K -> good fit d k.
set body := (X in for_ _ _ X).
have [//|//||fit -> HI] := @for_ind _ Inv 0 (k_x K) body (fun _ _ => nseq (size (t_val t)) R0).
- move=> d f1 /andP[_ ld] H1.
  pose Inv2 k' fit := forall d' k, (d' < d) || ((d' == d) && (k < k')) -> k < k_basis K -> good fit d' k.
  rewrite /body; set b2 := (X in for_ _ _ X _).
  have [|||f2 E2 H2] := @for_ind _ Inv2 0 (k_basis K) b2 f1.
  + by [].
  + by move=> d' k; rewrite ltn0 andbF orbF; exact: H1.
  + move=> k f3 /andP[_ lk] H3.
    have [p Ep Hat] := Hp d k ld lk; have [r Er fr] := ev _ _ _ lk ld Ep.
    rewrite /b2 (rdE [::]) ?sp //= (rdE None) ?sr //= -/(at2 popt d k) Hat /= Er /= fr /=.
    eexists; first reflexivity.
    move=> d' k' c lk'; rewrite /good.
    case: (boolP ((k' == k) && (d' == d))) => [/andP[/eqP -> /eqP ->]|ne].
      by exists p, r; split.
    have [||p' [r' [E1 E2 E3]]] := H3 d' k' => //.
      case/orP: c => [->//|/andP[/eqP e]]; rewrite e eqxx andbT ltnn /= ltnS leq_eqVlt in ne *.
      by rewrite (negPf ne).
    by exists p', r'; split.
  + exists f2; first exact: E2.
    move=> d' k; rewrite ltnS leq_eqVlt => c lk; apply: H2 => //.
    by case/orP: c => [/eqP ->|->//]; rewrite eqxx lk orbT.
- by eexists; first reflexivity; split=> // k d lk ld; exact: HI.
Qed.

(** Times given as a column are accepted by the fit and refused by the evaluation. *)
Lemma kernel_column K ty popt t0 t1 ts :
  let t := Times false [:: t0, t1 & ts] in
  0 < k_x K -> 0 < k_basis K -> ty <> "prony" ->
  mfitk t K ty = Ok (ty, popt) -> mevalk t ty popt = Err ValueError.
Proof.
move=> t dx db np Ek; have [_ sp sr Hp] := fit_kernelP Ek.
rewrite /memory_kernel_eval (rdE [::]) ?sp //= sr //.
have [p Ep Hat] := Hp 0 0 dx db.
have {Ep} : exists2 r, meval t ty p = Ok r & t_flat r = false /\ size (t_val r) = (size ts).+2.
  case: (fit_eval Ep) => _ [[f [_ _ E]]|[q [e]]]; last by [].
  by eexists; [exact: E|]; rewrite /= size_map.
case=> r Er [fr s2].
have E0 : rd popt 0 = Ok (nth [::] popt 0) by rewrite (rdE [::]) ?sp.
have E1 : rd (nth [::] popt 0) 0 = Ok (Some p) by rewrite (rdE None) ?sr // -/(at2 popt 0 0) Hat.
rewrite /for_ !subn0.
case: (k_x K) dx => // kx _; case: (k_basis K) db => // kb _ /=.
by rewrite E0 /= E1 /= Er /= fr s2.
Qed.

End Proofs.
