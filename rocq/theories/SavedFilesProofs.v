(** * Files written by estimators: proofs. *)
From Coq Require Import String.
From mathcomp Require Import all_ssreflect all_algebra.
From mathcomp Require Import complex.
From Verif Require Import Base Model Estimator CorrsLoop Workflow WorkflowProofs WorkflowWitness CorrelationProofs SavedFiles.
Set Implicit Arguments.
Unset Strict Implicit.
Unset Printing Implicit Defensive.
Import GRing.Theory.
Local Open Scope ring_scope.

Local Arguments write : simpl never.

Section Proofs.
Variables (R : rcfType) (w : nat -> R[i]) (dx o : nat) (m : model_fns R dx o).
Local Notation est := (est m).

(** Everything of an estimator but [saveall] and [prefix]. *)
Definition memory (e : est) := (e_dt e, e_trunc e, e_trajs e, e_state e).

Lemma est_call_state (e : est) d c :
  let r := est_call w e d c in
  [/\ e_state r.1.1 = (apply_call w (e_dt e) (e_trunc e) (e_trajs e) (e_state e) c).1,
      memory r.1.1 = (e_dt e, e_trunc e, e_trajs e, e_state r.1.1)
    & e_saveall r.1.1 = e_saveall e /\ e_prefix r.1.1 = e_prefix e].
Proof.
rewrite /est_call; case: (apply_call _ _ _ _ _ c) => s [[]|x] //=.
case sv: (e_saveall e) => //; case: c => //=.
  by move=> _ _; case: (st_corrs s) => [cd|] //; rewrite /save_corrs; case: (dotbkbk cd).
by move=> _ _; case: (st_kernel s).
Qed.

Lemma step_memory (es es' : seq est) d d' p : [seq memory e | e <- es] = [seq memory e | e <- es'] ->
  [seq memory e | e <- (step w (es, d) p).1.1] = [seq memory e | e <- (step w (es', d') p).1.1].
Proof.
rewrite /step /=; case: p => i c /=.
elim: es es' i => [|e es IH] [|e' es'] [|i] //= [dte tre te ste H].
  have := est_call_state e d c; have := est_call_state e' d' c.
  case: (est_call w e d c) => -[a b] r; case: (est_call w e' d' c) => -[a' b'] r' /= [S' M' _] [S M _].
  by rewrite M M' S S' dte tre te ste H.
have := IH es' i H; case: (nth None _ i) => [a|]; case: (nth None _ i) => [a'|] //=.
- by case: (est_call w a d c) => -[? ?] ?; case: (est_call w a' d' c) => -[? ?] ? /= ->; rewrite /memory dte tre te ste.
- by case: (est_call w a d c) => -[? ?] ? /= ->; rewrite /memory dte tre te ste.
- by case: (est_call w a' d' c) => -[? ?] ? /= ->; rewrite /memory dte tre te ste.
- by rewrite /memory dte tre te ste H.
Qed.

(** What the estimators hold does not depend on [saveall], [prefix] or the disk. *)
Lemma run_memory (es es' : seq est) d d' ps : [seq memory e | e <- es] = [seq memory e | e <- es'] ->
  [seq memory e | e <- (run w (es, d) ps).1] = [seq memory e | e <- (run w (es', d') ps).1].
Proof.
elim: ps es es' d d' => [|p ps IH] es es' d d' H //=.
have := step_memory d d' p H.
by rewrite /run /=; case: (step w (es, d) p).1 => a b; case: (step w (es', d') p).1 => a' b' /= /IH; apply.
Qed.

(** The fourth array is there exactly when it was asked for. *)
Lemma corrs_second_order rt so tr f trajs cd : compute_corrs (m := m) w rt so tr f trajs = Ok cd ->
  (dotbkbk cd : bool) = so.
Proof.
case: f => [c|] // H; rewrite /compute_corrs /loop_over_trajs in H; unbind H arr Ha.
have A : all (fun a => (dotbkbk a : bool) == so) arr.
  move: Ha; clear H; elim: (zip _ _) arr => [|x l IH] arr /= H; first by case: H => <-.
  unbind H b Hb; unbind H bs Hbs; case: H => <- /=; rewrite (IH _ Hbs) andbT.
  rewrite /correlation_ufunc in Hb; unbind Hb bd Hbd; unbind Hb bb Hbb; move: Hb.
  case: so {IH Hbs} => Hb; last by unbind Hb d0 Hd; case: Hb => <-.
  by unbind Hb db Hdb; unbind Hb dd Hdd; case: Hb => <-.
move: H; rewrite /combine; set W := (_)%:R.
have : all (fun a => (dotbkbk a : bool) == so) [seq scale_corrs (p.1%:R / W) p.2 | p <- zip [seq size t | t <- trajs] arr].
  elim: [seq size t | t <- trajs] arr A {Ha} => [|z zs IH] [|a arr] //= /andP[a1 a2].
  by rewrite IH // andbT; case: (dotbkbk a) a1.
case: [seq _ | p <- _] => // x xs /= /andP[x1 xs1].
elim: xs x xs1 x1 => [|y ys IH] x /= ; first by move=> _ /eqP <- [->].
case/andP=> y1 ys1 x1.
rewrite /add_corrs; case: (addseq (bkbk x) _) => [a1|e] /=; last by elim: (ys) => //= ? ? ->.
case: (addseq (bkdx x) _) => [a2|e] /=; last by elim: (ys) => //= ? ? ->.
case: (addseq (dotbkdx x) _) => [a3|e] /=; last by elim: (ys) => //= ? ? ->.
case: (dotbkbk x) x1 => [u|] x1; case: (dotbkbk y) y1 => [v|] y1; try by elim: (ys) => //= ? ? ->.
  case: (addseq u v) => [a4|e] /=; last by elim: (ys) => //= ? ? ->.
  exact: IH.
exact: IH.
Qed.

(** What a call does to the kernel and the correlations. *)
Lemma call_kernel_corrs dt tr trajs s c s' r : apply_call w (m := m) dt tr trajs s c = (s', r) ->
  match c, r with
  | CallKernel _ _, Ok _ => (exists k, st_kernel s' = Some k) /\ st_corrs s' = st_corrs s
  | CallCorrs _ so, Ok _ => (exists2 cd, st_corrs s' = Some cd & (dotbkbk cd : bool) = so) /\ st_kernel s' = st_kernel s
  | _, _ => st_kernel s' = st_kernel s /\ st_corrs s' = st_corrs s
  end.
Proof.
case: c => /=.
- rewrite /call_mean_force; case: (avg_loop _ _) => [a|e] /=; last by case=> <- _.
  case: (avg_loop _ _) => [b|e] /=; last by case=> <- _.
  by case: (solve_linear _ _) => [x|e] /= [<- _].
- by case=> <- _.
- by case: (compute_gram _ _) => [x|e] /= [<- _].
- by case: (compute_gram_kernel _ _) => [x|e] /= [<- _].
- by case: (compute_effective_mass _) => [x|e] /= [<- _].
- move=> rt so; case E: (compute_corrs _ _ _ _ _ _) => [x|e] /= [<- <-] //.
  by split=> //; exists x => //; exact: corrs_second_order E.
- move=> mt k0; rewrite /call_kernel; case E: (st_corrs s) => [cd|]; last by case=> <- <-; rewrite E.
  case: tr => [|n]; first by case=> <- <-; rewrite E.
  by case: (compute_kernel _ _ _ _ _) => [k|e] /= [<- <-]; rewrite /= E //; split=> //; exists k.
- case E1: (st_kernel s) => [k|]; last by case=> <- _; rewrite E1.
  case E2: (st_corrs s) => [cd|]; last by case=> <- _; rewrite E1 E2.
  by case: (check_volterra_inversion _ _ _) => [x|e] /= [<- _]; rewrite E1 E2.
- by move=> xva tk a b; case: (compute_noise _ _ _ _ _ _ _ _ _) => [x|e] /= [<- _].
- by move=> xs; case: (force_eval _ _) => [x|e] /= [<- _].
Qed.

Lemma write_same (d : disk m) f c : write d f c f = Some c.
Proof. by rewrite /write String.eqb_refl. Qed.

Lemma write_other (d : disk m) f g c : f <> g -> write d f c g = d g.
Proof. by move=> fg; rewrite /write; case: String.eqb_spec. Qed.

(** Contents of the two files when only estimator [i] saves. *)
Definition kernel_content (e : est) : option (content m) :=
  omap (fun k => KernelFile k.1 k.2) (st_kernel (e_state e)).
Definition corrs_content (e : est) : option (content m) :=
  omap (fun cd => CorrsFile (mkseq (fun n => n%:R * e_dt e) (size (bkbk cd))) cd) (st_corrs (e_state e)).

Definition est_at (es : seq est) i := nth None [seq Some e | e <- es] i.

Lemma est_at_set es i j e0 e : est_at es i = Some e0 ->
  est_at (set_nth e es i e) j = if j == i then Some e else est_at es j.
Proof.
rewrite /est_at => H.
have il : (i < size es)%N.
  by rewrite ltnNge; apply/negP => le; rewrite nth_default ?size_map in H.
have -> : [seq Some e | e <- set_nth e es i e] = set_nth None [seq Some e | e <- es] i (Some e).
  by elim: es i il {H} => [|a es IH] [|i] //= il; rewrite IH.
by rewrite nth_set_nth.
Qed.

Definition only_saver (es : seq est) (i : nat) : Prop :=
  forall j e, est_at es j = Some e -> e_saveall e = (j == i).

(** Correlations asked from [i] without the second-order ones. *)
Definition first_order_call (i : nat) (p : nat * call m) : bool :=
  (p.1 == i) && match p.2 with CallCorrs _ so => ~~ so | _ => false end.

Lemma est_at_step (es : seq est) d p j :
  est_at (step w (es, d) p).1.1 j
  = if est_at es p.1 is Some e then if j == p.1 then Some (est_call w e d p.2).1.1 else est_at es j else est_at es j.
Proof.
rewrite /step -/(est_at es p.1); case H: (est_at es p.1) => [e|] //.
by case: (est_call w e d p.2) => -[e' d'] r /=; rewrite (est_at_set _ _ H).
Qed.

Lemma only_saver_step (es : seq est) d p i : only_saver es i -> only_saver (step w (es, d) p).1.1 i.
Proof.
move=> H j e; rewrite est_at_step; case E: (est_at es p.1) => [e0|]; last exact: H.
case: eqP => [->|_]; last exact: H.
by case=> <-; have [_ _ [-> _]] := est_call_state e0 d p.2; exact: H.
Qed.

Definition disk_agrees (fo : bool) (i : nat) (wd : world m) : Prop :=
  forall e, est_at wd.1 i = Some e ->
    [/\ wd.2 "kernel.nc"%string = kernel_content e,
        ~~ fo -> wd.2 "corrs.nc"%string = corrs_content e
      & forall f, f <> "kernel.nc"%string -> f <> "corrs.nc"%string -> wd.2 f = None].

Lemma disk_agrees_step (fo : bool) i es d p : only_saver es i -> (first_order_call i p -> fo) ->
  disk_agrees fo i (es, d) -> disk_agrees fo i (step w (es, d) p).1.
Proof.
move=> S Hf A e; rewrite est_at_step.
have -> : (step w (es, d) p).1.2 = if est_at es p.1 is Some e then (est_call w e d p.2).1.2 else d.
  rewrite /step -/(est_at es p.1); case: (est_at es p.1) => [a|] //.
  by case: (est_call w a d p.2) => -[].
case E: (est_at es p.1) => [e0|]; last exact: A.
have Sv := S _ _ E; move: Hf; rewrite /first_order_call; case: p E Sv => j c /= E Sv Hf.
have := est_call_state e0 d c; rewrite /est_call.
case: (i =P j) => ij; last first.
  rewrite (_ : j == i = false) in Sv; last by apply/negbTE/eqP => h; apply: ij.
  by rewrite Sv; case: (apply_call _ _ _ _ _ c) => s [[]|x] _; exact: A.
rewrite ij eqxx in Sv Hf A *; have {A} /= [A1 A2 A3] := A _ E.
rewrite Sv; case Ea: (apply_call _ _ _ _ _ c) => [s r].
have := call_kernel_corrs Ea; case: r Ea => [[]|x] Ea.
- case: c Ea Hf => //=.
  + by move=> _ _ [k1 k2] _ [<-]; rewrite /kernel_content /corrs_content /= k1 k2.
  + by move=> _ _ [k1 k2] _ [<-]; rewrite /kernel_content /corrs_content /= k1 k2.
  + by move=> _ _ [k1 k2] _ [<-]; rewrite /kernel_content /corrs_content /= k1 k2.
  + by move=> _ _ [k1 k2] _ [<-]; rewrite /kernel_content /corrs_content /= k1 k2.
  + by move=> _ _ [k1 k2] _ [<-]; rewrite /kernel_content /corrs_content /= k1 k2.
  + move=> rt so _ Hf [[cd E1 E2] k2] _.
    rewrite E1 /save_corrs; case E3: (dotbkbk cd) E2 => [dd|] so'; rewrite -so' in Hf => -[<-] /=.
    * split=> [|_|f f1 f2]; rewrite /kernel_content /corrs_content /= ?k2 ?E1 ?write_same //.
      by rewrite write_other; [exact: A3 | exact: nesym].
    * split=> [|nf|f f1 f2]; rewrite /kernel_content /= ?k2 //; last exact: A3.
      by rewrite Hf in nf.
  + move=> mt k0 _ _ [[k E1] k2] _; rewrite E1 /save_kernel => -[<-] /=.
    split=> [|nf|f f1 f2]; rewrite /kernel_content /corrs_content /= ?k2 ?E1 ?write_same //.
      by rewrite write_other; [exact: A2 | move=> h; discriminate h].
    by rewrite write_other; [exact: A3 | exact: nesym].
  + by move=> _ _ [k1 k2] _ [<-]; rewrite /kernel_content /corrs_content /= k1 k2.
  + by move=> ? ? ? ? _ _ [k1 k2] _ [<-]; rewrite /kernel_content /corrs_content /= k1 k2.
  + by move=> ? _ _ [k1 k2] _ [<-]; rewrite /kernel_content /corrs_content /= k1 k2.
move=> h; have {h} [k1 k2] : st_kernel s = st_kernel (e_state e0) /\ st_corrs s = st_corrs (e_state e0) by case: (c) h.
by move=> _ [<-]; rewrite /kernel_content /corrs_content /= k1 k2.
Qed.

Lemma saved_files i (es : seq est) ps : only_saver es i ->
  (forall e, est_at es i = Some e -> e_state e = init m) ->
  disk_agrees (has (first_order_call i) ps) i (run w (es, fun=> None) ps).
Proof.
move=> S I.
have A : disk_agrees (has (first_order_call i) ps) i (es, fun=> None).
  by move=> e /I H; rewrite /kernel_content /corrs_content H.
suff G (fo : bool) : forall es d, only_saver es i -> disk_agrees fo i (es, d) -> (has (first_order_call i) ps -> fo) ->
    disk_agrees fo i (run w (es, d) ps) by exact: G.
elim: ps {es S I A} => [|p ps IH] es d S A //= Hf.
rewrite /run /=; have := only_saver_step (d := d) (p := p) S.
have := disk_agrees_step (p := p) S _ A => /(_ (fun h => Hf (introT orP (or_introl h)))).
case: (step w (es, d) p).1 => es' d' A' S'; apply: IH => // h; apply: Hf; apply/orP; by right.
Qed.

End Proofs.
