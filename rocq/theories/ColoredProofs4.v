(** * Covariance of the coloured noise. *)
From Coq Require Import Reals Lra Lia ZArith.
From Coquelicot Require Import Complex.
From mathcomp Require Import all_ssreflect zify.
From Verif Require Import Base Colored ColoredProofs ColoredProofs2 ColoredProofs3.
Set Implicit Arguments.
Unset Strict Implicit.
Unset Printing Implicit Defensive.
Local Open Scope R_scope.

(** A space of integrable random variables with its expectation; white noise of [len] samples. *)
Definition expect (Omega : Type) (L : (Omega -> R) -> Prop) (Ex : (Omega -> R) -> R) : Prop :=
  [/\ forall f g, L f -> L g -> L (fun x => f x + g x) /\ Ex (fun x => f x + g x) = Ex f + Ex g,
      forall a f, L f -> L (fun x => a * f x) /\ Ex (fun x => a * f x) = a * Ex f,
      L (fun _ => 0)
    & forall f g, (forall x, f x = g x) -> L f -> L g /\ Ex f = Ex g].

Definition white_seq (Omega : Type) (L : (Omega -> R) -> Prop) (Ex : (Omega -> R) -> R) (len : nat) (w : Omega -> seq R) : Prop :=
  (forall x, size (w x) = len) /\
  forall i, (i < len)%N -> [/\ L (fun x => nth 0 (w x) i), Ex (fun x => nth 0 (w x) i) = 0
    & forall j, (j < len)%N -> L (fun x => nth 0 (w x) i * nth 0 (w x) j) /\
        Ex (fun x => nth 0 (w x) i * nth 0 (w x) j) = if i == j then 1 else 0].

Lemma rsum_mulr n a f : rsum n f * a = rsum n (fun k => f k * a).
Proof. by elim: n => [|n IH] /=; rewrite -?IH; ring. Qed.
Lemma rsum_mull n a f : a * rsum n f = rsum n (fun k => a * f k).
Proof. by elim: n => [|n IH] /=; rewrite -?IH; ring. Qed.
Lemma rsum_0 n : rsum n (fun _ => 0) = 0.
Proof. by elim: n => //= n ->; ring. Qed.
Lemma rsum_one n f j : (j < n)%N -> (forall k, (k < n)%N -> k <> j -> f k = 0) -> rsum n f = f j.
Proof.
elim: n => //= n IH jn H; case: (j =P n) => [E|ne].
  rewrite E (_ : rsum n f = 0) ?Rplus_0_l //; rewrite -(rsum_0 n); apply: rsum_ext => k kn.
  by apply: H; [exact: leq_trans kn _ | lia].
rewrite (H n) //; last by move=> h; apply: ne.
by rewrite Rplus_0_r; apply: IH => [|k kn]; [lia | apply: H; lia].
Qed.

(** Coefficient of white sample [j] in coloured sample [i]. *)
Definition tap (h : seq R) (len i j : nat) : R :=
  let o := ((minn len (size h)).-1 %/ 2)%N in if (j <= i + o)%N then nth 0 h (i + o - j) else 0.

Lemma generateE h dt w : (0 < size w)%N -> (0 < size h)%N -> 0 <= dt ->
  exists2 s, colored_generate h dt w = Ok s & size s = size w /\
    forall i, (i < size w)%N -> nth 0 s i = rsum (size w) (fun j => sqrt dt * tap h (size w) i j * nth 0 w j).
Proof.
move=> w0 h0 d0; rewrite /colored_generate /convolve_same (gtn_eqF w0) (gtn_eqF h0) /=.
case: Rle_dec => hd; last by case: (hd d0).
eexists; first by reflexivity.
set c := mkseq _ _; have sc : (size w <= size c)%N by rewrite size_mkseq leq_maxl.
split=> [|i iw]; first by rewrite size_map size_takel.
rewrite (nth_map 0) ?size_takel // nth_take // nth_mkseq; last by rewrite leq_max iw.
rewrite /conv_full rsum_mulr; apply: rsum_ext => j jw; rewrite /tap; case: leq; ring.
Qed.

Section Cov.
Variables (Omega : Type) (L : (Omega -> R) -> Prop) (Ex : (Omega -> R) -> R).
Hypothesis HE : expect L Ex.

Lemma Ex_ext f g : (forall x, f x = g x) -> L f -> L g /\ Ex f = Ex g.
Proof. by have [_ _ _] := HE; apply. Qed.
Lemma Ex_scal a f : L f -> L (fun x => a * f x) /\ Ex (fun x => a * f x) = a * Ex f.
Proof. by have [_ H _ _] := HE => /(H a). Qed.
Lemma Ex_rsum n (F : nat -> Omega -> R) : (forall k, (k < n)%N -> L (F k)) ->
  L (fun x => rsum n (fun k => F k x)) /\ Ex (fun x => rsum n (fun k => F k x)) = rsum n (fun k => Ex (F k)).
Proof.
have [Hadd Hscal H0 _] := HE; elim: n => [|n IH] H /=.
  split=> //; have [l e] := Hscal 0 _ H0.
  by have [_ ->] := @Ex_ext (fun _ => 0) (fun _ => 0 * 0) (fun _ => esym (Rmult_0_l 0)) H0; rewrite e Rmult_0_l.
have [l e] := IH (fun k kn => H k (ltnW kn)).
by have [l' e'] := Hadd _ _ l (H n (ltnSn n)); split=> //; rewrite e' e.
Qed.

Lemma linear_cov len (w : Omega -> seq R) (u v : nat -> R) : white_seq L Ex len w ->
  (L (fun x => rsum len (fun j => u j * nth 0 (w x) j)) /\ Ex (fun x => rsum len (fun j => u j * nth 0 (w x) j)) = 0) /\
  L (fun x => rsum len (fun j => u j * nth 0 (w x) j) * rsum len (fun j => v j * nth 0 (w x) j)) /\
  Ex (fun x => rsum len (fun j => u j * nth 0 (w x) j) * rsum len (fun j => v j * nth 0 (w x) j)) = rsum len (fun j => u j * v j).
Proof.
move=> [sw Hw]; split.
  have LF k : (k < len)%N -> L (fun x => u k * nth 0 (w x) k).
    by move=> kl; apply: (Ex_scal _ _).1; case: (Hw k kl).
  have [l e] := Ex_rsum LF; split=> //; rewrite e -[RHS](rsum_0 len); apply: rsum_ext => k kl.
  have [lw ew _] := Hw k kl; transitivity (u k * 0); last by ring.
  by rewrite -[X in _ = _ * X]ew; exact: (Ex_scal (u k) lw).2.
pose T k j x := u k * v j * (nth 0 (w x) k * nth 0 (w x) j).
have LT k j : (k < len)%N -> (j < len)%N -> L (T k j).
  by move=> kl jl; apply: (Ex_scal _ _).1; have [_ _ H] := Hw k kl; case: (H j jl).
have LS k : (k < len)%N -> L (fun x => rsum len (fun j => T k j x)).
  by move=> kl; apply: (Ex_rsum _).1 => j jl; exact: LT.
have [l e] := Ex_rsum LS.
have E x : rsum len (fun k => rsum len (fun j => T k j x))
    = rsum len (fun j => u j * nth 0 (w x) j) * rsum len (fun j => v j * nth 0 (w x) j).
  rewrite rsum_mulr; apply: rsum_ext => k _; rewrite rsum_mull; apply: rsum_ext => j _; rewrite /T; ring.
have [l' e'] := Ex_ext E l; split=> //; rewrite -e' e; apply: rsum_ext => k kl.
have [_ e2] := Ex_rsum (fun j => LT k j kl); rewrite e2.
have [_ _ Hk] := Hw k kl.
rewrite (rsum_one kl) => [|j jl jk].
  have [lw ew] := Hk k kl; rewrite eqxx in ew; transitivity (u k * v k * 1); last by ring.
  by rewrite -[X in _ = _ * X]ew; exact: (Ex_scal (u k * v k) lw).2.
have [lw ew] := Hk j jl; transitivity (u k * v j * 0); last by ring.
move: ew; case: eqP => [E2|_]; first by case: jk.
by move=> ew; rewrite -[X in _ = _ * X]ew; exact: (Ex_scal (u k * v j) lw).2.
Qed.

Lemma colored_cov h dt len (w : Omega -> seq R) : (0 < len)%N -> (0 < size h)%N -> 0 <= dt -> white_seq L Ex len w ->
  exists2 eta : Omega -> seq R, forall x, colored_generate h dt (w x) = Ok (eta x) &
    [/\ forall x, size (eta x) = len,
        forall i, (i < len)%N -> L (fun x => nth 0 (eta x) i) /\ Ex (fun x => nth 0 (eta x) i) = 0
      & forall i l, (i < len)%N -> (l < len)%N ->
          L (fun x => nth 0 (eta x) i * nth 0 (eta x) l) /\
          Ex (fun x => nth 0 (eta x) i * nth 0 (eta x) l) = dt * rsum len (fun j => tap h len i j * tap h len l j)].
Proof.
move=> l0 h0 d0 Hw; have [sw _] := Hw.
pose eta x := if colored_generate h dt (w x) is Ok s then s else [::].
have He x : [/\ colored_generate h dt (w x) = Ok (eta x), size (eta x) = len
   & forall i, (i < len)%N -> nth 0 (eta x) i = rsum len (fun j => sqrt dt * tap h len i j * nth 0 (w x) j)].
  have w0 : (0 < size (w x))%N by rewrite sw.
  by rewrite /eta; have [s -> [ss Hs]] := generateE w0 h0 d0; rewrite sw in ss Hs; split.
exists eta => [x|]; first by case: (He x).
split=> [x|i il|i l il ll]; first by case: (He x).
  have [[l e] _] := linear_cov (fun j => sqrt dt * tap h len i j) (fun _ => 0) Hw.
  have [l' e'] := @Ex_ext _ (fun x => nth 0 (eta x) i) (fun x => esym (let: And3 _ _ H := He x in H i il)) l.
  by split=> //; rewrite -e'.
have [_ [lc ec]] := linear_cov (fun j => sqrt dt * tap h len i j) (fun j => sqrt dt * tap h len l j) Hw.
have E x : rsum len (fun j => sqrt dt * tap h len i j * nth 0 (w x) j) * rsum len (fun j => sqrt dt * tap h len l j * nth 0 (w x) j)
    = nth 0 (eta x) i * nth 0 (eta x) l by have [_ _ H] := He x; rewrite !H.
have [l' e'] := Ex_ext E lc; split=> //; rewrite -e' ec rsum_mull; apply: rsum_ext => j _.
rewrite -{3}(sqrt_sqrt dt d0); ring.
Qed.
End Cov.

(** Away from the ends: the autocorrelation of the filter. *)
Lemma tap_interior h c len i d : size h = (2 * c).+1 -> (size h <= len)%N -> (c <= i)%N -> (i + c < len)%N ->
  rsum len (fun j => tap h len i j * tap h len (i + d) j) = rsum (size h) (fun a => nth 0 h a * nth 0 h (a + d)).
Proof.
move=> sh hl ci il; rewrite (_ : len = (i + c).+1 + (len - (i + c).+1))%N; last by lia.
rewrite rsum_split [X in _ + X](rsum_ext (g := fun _ => 0)) ?rsum_0 ?Rplus_0_r; last first.
  move=> k _; rewrite /tap (_ : (minn _ (size h)).-1 %/ 2 = c)%N; last by lia.
  by rewrite ifF ?Rmult_0_l //; lia.
rewrite rsum_rev (rsum_ext (g := fun a => nth 0 h a * nth 0 h (a + d))); last first.
  move=> k kl; rewrite /tap (_ : (minn _ (size h)).-1 %/ 2 = c)%N; last by lia.
  rewrite !ifT; try lia.
  by congr (nth 0 h _ * nth 0 h _); lia.
rewrite (_ : (i + c).+1 = size h + ((i + c).+1 - size h))%N; last by lia.
rewrite rsum_split [X in _ + X](rsum_ext (g := fun _ => 0)) ?rsum_0 ?Rplus_0_r //.
by move=> k _; rewrite nth_default ?Rmult_0_l //; lia.
Qed.

(** ** White noise exists for every length *)
Definition spikes (N : nat) (x : nat) : seq R :=
  mkseq (fun i => if x == i then sqrt (INR N) else if x == (N + i)%N then - sqrt (INR N) else 0) N.
Definition average (N : nat) (f : nat -> R) : R := / (2 * INR N) * rsum (N + N) f.

Lemma rsum_plus n f g : rsum n (fun k => f k + g k) = rsum n f + rsum n g.
Proof. by elim: n => [|n IH] /=; rewrite ?IH; ring. Qed.

Lemma average_expect N : expect (fun _ => True) (average N).
Proof.
split=> // [f g _ _|a f _|f g E _]; split=> //; rewrite /average.
- rewrite rsum_plus; ring.
- rewrite -rsum_mull; ring.
- by congr Rmult; apply: rsum_ext => k _; exact: E.
Qed.

Lemma spikes_white N : (0 < N)%N -> white_seq (fun _ => True) (average N) N (spikes N).
Proof.
move=> N0; have NR : 0 < INR N by apply: lt_0_INR; lia.
split=> [x|i iN]; first by rewrite size_mkseq.
have E x : nth 0 (spikes N x) i = if x == i then sqrt (INR N) else if x == (N + i)%N then - sqrt (INR N) else 0.
  by rewrite nth_mkseq.
split=> // [|j jN].
  rewrite /average rsum_split (rsum_one iN) => [|k kN ki]; last first.
    by rewrite E; case: eqP => // _; case: eqP => // ?; lia.
  rewrite (rsum_one iN) => [|k kN ki]; last first.
    by rewrite E; case: eqP => [?|_]; [lia | case: eqP => // ?; lia].
  rewrite !E !eqxx ifF; last by apply/eqP; lia.
  ring.
split=> //; have E' x : nth 0 (spikes N x) j = if x == j then sqrt (INR N) else if x == (N + j)%N then - sqrt (INR N) else 0.
  by rewrite nth_mkseq.
rewrite /average; case: (i =P j) => [ij|ij].
  subst j; rewrite rsum_split (rsum_one iN) => [|k kN ki]; last first.
    by rewrite E; case: eqP => // _; case: eqP => [?|_]; [lia | ring].
  rewrite (rsum_one iN) => [|k kN ki]; last first.
    by rewrite E; case: eqP => [?|_]; [lia | case: eqP => [?|_]; [lia | ring]].
  rewrite !E !eqxx ifF; last by apply/eqP; lia.
  have S := sqrt_sqrt (INR N) (Rlt_le _ _ NR).
  rewrite Rmult_opp_opp S; field; lra.
rewrite (rsum_ext (g := fun _ => 0)) ?rsum_0 ?Rmult_0_r // => k kN.
rewrite E E'; case: (k =P i) => [?|_].
  by rewrite !ifF ?Rmult_0_r //; apply/eqP; lia.
case: (k =P (N + i)%N) => [?|_]; last by ring.
by rewrite !ifF ?Rmult_0_r //; apply/eqP; lia.
Qed.

(** ** An example: the kernel 11, 7 at times 0, 1 has the filter 1, 3, 1 *)
Lemma cos_2_3 : cos (2 * PI / 3) = - (1 / 2).
Proof. by rewrite (_ : 2 * PI / 3 = 2 * (PI / 3)); [rewrite cos_2PI3; lra | field]. Qed.
Lemma cos_4_3 : cos (4 * PI / 3) = - (1 / 2).
Proof.
rewrite -cos_neg (_ : - (4 * PI / 3) = 2 * PI / 3 - 2 * PI); last by field.
by rewrite cos_minus cos_2PI sin_2PI cos_2_3; ring.
Qed.

Definition kern : seq R := [:: 11; 7].
Definition tims : seq R := [:: 0; 1].

Lemma kern_spec k : (k < 3)%N -> spectrum kern k = if k == 0%N then 25 else 4.
Proof.
case: k => [|[|[|k]]] // _; rewrite /spectrum /=.
- by rewrite (_ : _ / _ = 0) ?cos_0; [ring | field].
- by rewrite (_ : 2 * PI * 1 * 1 / _ = 2 * PI / 3); [rewrite cos_2_3; field | field].
- by rewrite (_ : 2 * PI * (1 + 1) * 1 / _ = 4 * PI / 3); [rewrite cos_4_3; field | field].
Qed.

Lemma tims_grid i : (i < size tims)%N -> nth 0 tims i = INR i * 1.
Proof. by case: i => [|[|i]] //= _; ring. Qed.

Lemma kern_filter : colored_filter kern tims = Ok [:: 1; 3; 1].
Proof.
have [h -> [sh Hh]] := @filterE kern tims 1 erefl erefl Rlt_0_1 tims_grid; congr Ok.
have rp k : (k < 3)%N -> rpos kern 1 (Z.of_nat k) = if k == 0%N then 5 else 2.
  move=> k3; rewrite /rpos (@specE kern tims) // kern_spec // Rmult_1_l; case: eqP => _.
    by rewrite Rmax_left; [rewrite (_ : 25 = 5 * 5); [rewrite sqrt_square; lra | lra] | lra].
  by rewrite Rmax_left; [rewrite (_ : 4 = 2 * 2); [rewrite sqrt_square; lra | lra] | lra].
have val m : (m < 3)%N -> nth 0 h m = / 3 * (5 + 2 * cos (2 * PI * IZR (Z.of_nat m - 1) / 3) + 2 * cos (2 * PI * IZR (2 * (Z.of_nat m - 1)) / 3)).
  move=> m3; have := congr1 Re (Hh m m3); rewrite Re_scal /H csum_Re.
  rewrite (_ : Re (RtoC (nth 0 h m)) = nth 0 h m) // => ->.
  have r3 f : rsum (2 * (size kern).-1).+1 f = f 0%N + f 1%N + f 2%N.
    by change (0 + f 0%N + f 1%N + f 2%N = f 0%N + f 1%N + f 2%N); ring.
  rewrite r3 !Re_scal !Re_e (rp 0%N) // (rp 1%N) // (rp 2%N) //.
  have -> : INR (2 * (size kern).-1).+1 = 3 by change (INR 3 = 3); rewrite /=; ring.
  change (Z.of_nat (size kern).-1) with 1%Z; change (Z.of_nat 0) with 0%Z; change (Z.of_nat 1) with 1%Z; change (Z.of_nat 2) with 2%Z.
  rewrite Z.mul_0_l Z.mul_1_l (_ : 2 * PI * 0 / 3 = 0); last by field.
  by rewrite cos_0 /= Rmult_1_r Rmult_1_r.
apply: (@eq_from_nth _ 0); first by rewrite sh.
rewrite sh => m m3; rewrite val //; case: m m3 => [|[|[|m]]] // _ /=.
- rewrite (_ : 2 * PI * -1 / 3 = - (2 * PI / 3)); last by field.
  rewrite (_ : 2 * PI * -2 / 3 = - (4 * PI / 3)); last by field.
  by rewrite !cos_neg cos_2_3 cos_4_3; field.
- by rewrite !Rmult_0_r /Rdiv Rmult_0_l cos_0; field.
- rewrite (_ : 2 * PI * 1 / 3 = 2 * PI / 3); last by field.
  rewrite (_ : 2 * PI * 2 / 3 = 4 * PI / 3); last by field.
  by rewrite cos_2_3 cos_4_3; field.
Qed.
