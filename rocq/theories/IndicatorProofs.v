(** * Smooth indicators: lemmas. *)
From Coq Require Import Reals Lra Lia.
From Coquelicot Require Import Coquelicot.
From mathcomp Require Import all_ssreflect zify.
From Verif Require Import Base Colored ColoredProofs ColoredProofs3 ColoredProofs4 Calculus BasisProofs Indicator.
Set Implicit Arguments.
Unset Strict Implicit.
Unset Printing Implicit Defensive.
Local Open Scope R_scope.

(** ** Specifications *)
(** Ordered, non-overlapping boundaries, each given with its ends in any order. *)
Definition ordered (bs : seq (R * R)) : Prop :=
  (forall n, (n < size bs)%N -> (nth (0, 0) bs n).1 <> (nth (0, 0) bs n).2) /\
  forall n, (n.+1 < size bs)%N -> upper (nth (0, 0) bs n) <= lower (nth (0, 0) bs n.+1).
(** What is asked of the interpolating function. *)
Definition from1to0 (B : boundary_fun) : Prop :=
  [/\ B 0%N 0 = 1, B 0%N 1 = 0 & forall u, 0 <= u <= 1 -> 0 <= B 0%N u <= 1].
Definition differentiable1 (B : boundary_fun) : Prop :=
  [/\ B 1%N 0 = 0, B 1%N 1 = 0 & forall u, is_derive (B 0%N) u (B 1%N u)].
Definition differentiable2 (B : boundary_fun) : Prop := forall u, is_derive (B 1%N) u (B 2%N u).

Lemma rltbP x y : reflect (x < y) (rltb x y).
Proof. by rewrite /rltb; case: Rlt_dec => h; constructor. Qed.

Lemma quartic_ok : from1to0 quartic /\ differentiable1 quartic /\ differentiable2 quartic.
Proof.
split; [split | split; [split | ]]; rewrite /quartic.
- ring.
- ring.
- move=> u [u0 u1]; have h : 0 <= 1 - u ^ 2 <= 1 by split; nra.
  by split; nra.
- ring.
- ring.
- by move=> u; auto_derive => //; ring.
- by move=> u; auto_derive => //; ring.
Qed.
Lemma triweight_ok : from1to0 triweight /\ differentiable1 triweight /\ differentiable2 triweight.
Proof.
split; [split | split; [split | ]]; rewrite /triweight.
- ring.
- ring.
- move=> u [u0 u1]; have h : 0 <= 1 - u ^ 2 <= 1 by split; nra.
  move: (1 - u ^ 2) h => w [w0 w1]; have h2 : 0 <= w ^ 2 <= 1 by split; nra.
  have -> : w ^ 3 = w ^ 2 * w by ring.
  by split; nra.
- ring.
- ring.
- by move=> u; auto_derive => //; ring.
- by move=> u; auto_derive => //; ring.
Qed.
Lemma tricube_ok : from1to0 tricube /\ differentiable1 tricube /\ differentiable2 tricube.
Proof.
split; [split | split; [split | ]]; rewrite /tricube.
- ring.
- ring.
- move=> u [u0 u1]; have h : 0 <= 1 - u ^ 3 <= 1.
    have h2 : 0 <= u ^ 2 <= 1 by split; nra.
    have -> : u ^ 3 = u ^ 2 * u by ring.
    by split; nra.
  move: (1 - u ^ 3) h => w [w0 w1]; have h2 : 0 <= w ^ 2 <= 1 by split; nra.
  have -> : w ^ 3 = w ^ 2 * w by ring.
  by split; nra.
- ring.
- ring.
- by move=> u; auto_derive => //; ring.
- by move=> u; auto_derive => //; ring.
Qed.
Lemma boundary_ok t B : boundary_of t = Ok B -> from1to0 B /\ differentiable1 B /\ differentiable2 B.
Proof. by case: t => //= -[<-]; [exact: tricube_ok | exact: triweight_ok | exact: quartic_ok]. Qed.

(** ** One transition *)
(** The step from [K] to 0 at a boundary. *)
Definition stepf (K : R) (f : R -> R) (p : R * R) (x : R) : R :=
  if rltb x (lower p) then K else if rltb (upper p) x then 0 else f ((x - lower p) / (upper p - lower p)).

Lemma lower_lt p : p.1 <> p.2 -> lower p < upper p.
Proof.
rewrite /lower /upper /Rmin /Rmax => ne.
by case: (Rle_dec p.1 p.2) => h; lra.
Qed.

Lemma locateE a b x : a < b -> exists2 l, locate a b x = Ok l &
  forall K low f, where3 l low f =
    if rltb x a then low else (if rltb x a then K else if rltb b x then 0 else f ((x - a) / (b - a))).
Proof.
move=> ab; rewrite /locate; case: Req_EM_T => [e|ne]; first by exfalso; lra.
have ba : 0 < / (b - a) by apply: Rinv_0_lt_compat; lra.
have U0 : rltb ((x - a) / (b - a)) 0 = rltb x a.
  apply/rltbP/rltbP => h; rewrite /Rdiv in h *; nra.
have U1 : rltb 1 ((x - a) / (b - a)) = rltb b x.
  have E : 1 = (b - a) / (b - a) by field; lra.
  by apply/rltbP/rltbP => h; [rewrite E /Rdiv in h | rewrite E /Rdiv]; nra.
rewrite U0 U1; eexists; first by [].
by move=> K low f; case: (rltb x a) => //; case: (rltb b x).
Qed.

Lemma stepf_low K f p x : x < lower p -> stepf K f p x = K.
Proof. by move=> h; rewrite /stepf; case: rltbP. Qed.
Lemma stepf_high K f p x : p.1 <> p.2 -> upper p <= x -> (x = upper p -> f 1 = 0) -> stepf K f p x = 0.
Proof.
move=> /lower_lt ab h f1; rewrite /stepf; case: rltbP => h1; first lra.
case: rltbP => h2 //; have e : x = upper p by lra.
by rewrite e (_ : (upper p - lower p) / _ = 1) ?f1 //; field; lra.
Qed.
Lemma stepf_range f p x : p.1 <> p.2 -> (forall u, 0 <= u <= 1 -> 0 <= f u <= 1) -> 0 <= stepf 1 f p x <= 1.
Proof.
move=> /lower_lt ab H; rewrite /stepf; case: rltbP => h1; first lra.
case: rltbP => h2; first lra.
have ba : 0 < / (upper p - lower p) by apply: Rinv_0_lt_compat; lra.
have E : 1 = (upper p - lower p) * / (upper p - lower p) by field; lra.
by apply: H; rewrite /Rdiv; split; nra.
Qed.

(** Derivative of a function given by two formulas around a point. *)
Lemma glue_derive (h g1 g2 : R -> R) (c l d0 : R) : 0 < d0 -> (forall y, Rabs (y - c) < d0 -> h y = g1 y \/ h y = g2 y) ->
  h c = g1 c -> h c = g2 c -> is_derive g1 c l -> is_derive g2 c l -> is_derive h c l.
Proof.
move=> d0p Hh E1 E2 D1 D2; apply: bound_derive => eps e0.
have [d1 p1 B1] := derive_bound D1 e0; have [d2 p2 B2] := derive_bound D2 e0.
exists (Rmin d0 (Rmin d1 d2)); first by repeat apply: Rmin_pos.
move=> k kd.
have k0 : Rabs k < d0 by apply: Rlt_le_trans kd (Rmin_l _ _).
have k1 : Rabs k < d1 by apply: Rlt_le_trans kd (Rle_trans _ _ _ (Rmin_r _ _) (Rmin_l _ _)).
have k2 : Rabs k < d2 by apply: Rlt_le_trans kd (Rle_trans _ _ _ (Rmin_r _ _) (Rmin_r _ _)).
case: (Hh (c + k)); first by rewrite (_ : c + k - c = k) //; ring.
  by move=> ->; rewrite E1; exact: B1.
by move=> ->; rewrite E2; exact: B2.
Qed.

Lemma stepf_derive K (f f' : R -> R) p x : p.1 <> p.2 -> (forall u, is_derive f u (f' u)) ->
  (x = lower p -> f 0 = K /\ f' 0 = 0) -> (x = upper p -> f 1 = 0 /\ f' 1 = 0) ->
  is_derive (stepf K f p) x (stepf 0 (fun u => f' u / (upper p - lower p)) p x).
Proof.
move=> /lower_lt; rewrite /stepf; move: (lower p) (upper p) => a b ab D Ha Hb.
pose g y := f ((y - a) / (b - a)).
have Dg : is_derive g x (f' ((x - a) / (b - a)) / (b - a)).
  have := @is_derive_comp _ _ f (fun y => (y - a) / (b - a)) x (f' ((x - a) / (b - a))) (/ (b - a)) (D _).
  have -> : scal (/ (b - a)) (f' ((x - a) / (b - a))) = f' ((x - a) / (b - a)) / (b - a).
    by rewrite /scal /= /mult /= Rmult_comm.
  by apply; auto_derive => //; ring.
case: (Rtotal_order x a) => [xa|[xa|xa]].
- case: rltbP => [_|//]; apply: (@glue_derive _ (fun _ => K) (fun _ => K) _ _ (a - x)); try exact: is_derive_const; try lra.
  + move=> y /Rabs_def2 h; case: rltbP => h'; [by left | lra].
  + by case: rltbP.
  + by case: rltbP.
- have [f0 f0'] := Ha xa.
  have u0 : (x - a) / (b - a) = 0 by rewrite xa /Rdiv Rminus_eq_0 Rmult_0_l.
  rewrite u0 f0' (_ : 0 / (b - a) = 0) in Dg *; last by rewrite /Rdiv Rmult_0_l.
  have -> : (if rltb x a then 0 else if rltb b x then 0 else 0) = 0 by case: rltb => //; case: rltb.
  have R1 : rltb x a = false by apply/rltbP; lra.
  have R2 : rltb b x = false by apply/rltbP; lra.
  apply: (@glue_derive _ (fun _ => K) g _ _ (b - a)) => //; try exact: is_derive_const; try lra.
  + move=> y /Rabs_def2 h; case: rltbP => h'; first by left.
    by case: rltbP => h''; [lra | right].
  + by rewrite R1 R2 u0 f0.
  + by rewrite R1 R2.
- have R1 : rltb x a = false by apply/rltbP; lra.
  case: (Rtotal_order x b) => [xb|[xb|xb]].
  + have R2 : rltb b x = false by apply/rltbP; lra.
    rewrite R1 R2.
    have := Rmin_l (x - a) (b - x); have := Rmin_r (x - a) (b - x) => m1 m2.
    apply: (@glue_derive _ g g _ _ (Rmin (x - a) (b - x))) => //.
    * by apply: Rmin_pos; lra.
    * move=> y /Rabs_def2 h; case: rltbP => h'; first lra.
      by case: rltbP => h''; [lra | left].
    * by rewrite R1 R2.
    * by rewrite R1 R2.
  + have [f1 f1'] := Hb xb.
    have u1 : (x - a) / (b - a) = 1 by rewrite xb; field; lra.
    have R2 : rltb b x = false by apply/rltbP; lra.
    rewrite R1 R2 u1 f1' (_ : 0 / (b - a) = 0) in Dg *; last by rewrite /Rdiv Rmult_0_l.
    apply: (@glue_derive _ g (fun _ => 0) _ _ (b - a)) => //; try exact: is_derive_const; try lra.
    * move=> y /Rabs_def2 h; case: rltbP => h'; first lra.
      by case: rltbP => h''; [right | left].
    * by rewrite R1 R2.
    * by rewrite R1 R2 u1 f1.
  + have R2 : rltb b x = true by apply/rltbP; lra.
    rewrite R1 R2.
    apply: (@glue_derive _ (fun _ => 0) (fun _ => 0) _ _ (x - b)); try exact: is_derive_const; try lra.
    * move=> y /Rabs_def2 h; case: rltbP => h'; first lra.
      by case: rltbP => h''; [left | lra].
    * by rewrite R1 R2.
    * by rewrite R1 R2.
Qed.

(** ** The loop over the states *)
Section Loop.
Variables (K x : R) (F : R * R -> R -> R) (bs : seq (R * R)).
Let S n := stepf K (F (nth (0, 0) bs n)) (nth (0, 0) bs n) x.
Hypothesis bs0 : (0 < size bs)%N.
Hypothesis ord : ordered bs.
Hypothesis joint : forall n, (n < size bs)%N -> x = upper (nth (0, 0) bs n) -> F (nth (0, 0) bs n) 1 = 0.

Definition raw (n : nat) : R := if n is m.+1 then (if rltb x (lower (nth (0, 0) bs n)) then K - S m else S n) else S 0%N.

Lemma ind_loop body N : (size bs <= N)%N ->
  (forall n st, (0 < n < size bs)%N -> body n st =
     Ok (set_nth 0 st.1 n (if rltb x (lower (nth (0, 0) bs n)) then st.2 else S n), K - S n)) ->
  exists2 f, for_ 1 (size bs) body (set_nth 0 (nseq N 0) 0 (S 0%N), K - S 0%N) = Ok (f, K - S (size bs).-1) &
    size f = N /\ forall j, (j < size bs)%N -> nth 0 f j = raw j.
Proof.
move=> leN Hb.
have [|||[f c] E [sf [Ec Hf]]] := @for_ind _ (fun n (st : ind_state) => size st.1 = N /\ (st.2 = K - S n.-1) /\
   forall j, (j < n)%N -> nth 0 st.1 j = raw j) 1 (size bs) body (set_nth 0 (nseq N 0) 0 (S 0%N), K - S 0%N); last first.
- by exists f => //; rewrite E -Ec.
- move=> n [f c] ln [/= sf [Ec Hf]]; rewrite Hb //=; eexists; first by [].
  split; first by rewrite /= size_set_nth sf; apply/maxn_idPr; lia.
  split=> // j lj; rewrite nth_set_nth /=; case: (j =P n) => [->|jn]; last by apply: Hf; lia.
  by case: n ln Ec {Hf lj Hb} => // n ln ->.
- split; first by rewrite /= size_set_nth size_nseq; apply/maxn_idPr; lia.
  by split=> // -[|//] _; rewrite nth_set_nth.
- by [].
Qed.

Lemma rawE n : (n < size bs)%N -> raw n = if n is m.+1 then S n - S m else S 0%N.
Proof.
case: n => // n ln; rewrite /raw; case: rltbP => h.
  by have -> : S n.+1 = K by exact: stepf_low.
have -> : S n = 0; last ring.
apply: stepf_high.
- by apply: ord.1; lia.
- by apply: Rle_trans (ord.2 _ ln) _; lra.
by apply: joint; lia.
Qed.

(** Boundaries further apart. *)
Lemma ordered_le m n : (m < n < size bs)%N -> upper (nth (0, 0) bs m) <= lower (nth (0, 0) bs n).
Proof.
move=> /andP[]; elim: n => // n IH; rewrite ltnS leq_eqVlt => /orP[/eqP -> ln|mn ln].
  exact: ord.2.
have := IH mn (ltn_trans (ltnSn _) ln); have := ord.2 _ ln; have := lower_lt (ord.1 n (ltn_trans (ltnSn _) ln)); lra.
Qed.
Lemma S_either m n : (m < n < size bs)%N -> S n = K \/ S m = 0.
Proof.
move=> mn; case: (Rlt_dec x (lower (nth (0, 0) bs n))) => h; [left | right].
  by rewrite /S stepf_low.
apply: stepf_high; [apply: ord.1; lia | | apply: joint; lia].
by have := ordered_le mn; lra.
Qed.

(** The columns: differences of consecutive steps, closed on the circle in the periodic case. *)
Definition column (periodic : bool) (j : nat) : R :=
  if j == size bs then K - S (size bs).-1
  else if j is m.+1 then S j - S m
  else if periodic then S 0%N + (K - S (size bs).-1) else S 0%N.
End Loop.

Lemma stepf_locate K f p x : p.1 <> p.2 -> exists2 l, locate (lower p) (upper p) x = Ok l &
  forall low, where3 l low f = if rltb x (lower p) then low else stepf K f p x.
Proof. by move=> /lower_lt ab; have [l E H] := locateE x ab; exists l => // low; rewrite (H K). Qed.

Definition size_ok (bs : seq (R * R)) (periodic : bool) : Prop := (0 < size bs)%N /\ (periodic -> (1 < size bs)%N).

Lemma ind_basisE B bs periodic x : from1to0 B -> ordered bs -> size_ok bs periodic ->
  exists2 f, ind_basis B bs periodic x = Ok f &
    size f = n_features (size bs) periodic /\
    forall j, (j < n_features (size bs) periodic)%N -> nth 0 f j = column 1 x (fun _ => B 0%N) bs periodic j.
Proof.
move=> [B0 B1 Br] ord [s0 s1].
have ne n : (n < size bs)%N -> (nth (0, 0) bs n).1 <> (nth (0, 0) bs n).2 by exact: ord.1.
pose S n := stepf 1 (B 0%N) (nth (0, 0) bs n) x.
have joint n : (n < size bs)%N -> x = upper (nth (0, 0) bs n) -> (fun _ : R * R => B 0%N) (nth (0, 0) bs n) 1 = 0 by [].
have leN : (size bs <= n_features (size bs) periodic)%N by rewrite /n_features; lia.
rewrite /ind_basis; case Ebs : bs => [|p0 bs']; first by rewrite Ebs in s0.
rewrite -Ebs.
have E0 : nth (0, 0) bs 0 = p0 by rewrite Ebs.
have [l El Hl] := stepf_locate 1 (B 0%N) x (ne 0%N s0).
rewrite E0 in El Hl; rewrite El /=.
have Hl1 : where3 l 1 (B 0%N) = S 0%N.
  by rewrite Hl /S E0; case: rltbP => // h; rewrite stepf_low.
rewrite Hl1.
have [|f -> [sf Hf]] := @ind_loop 1 x (fun _ => B 0%N) bs s0 (fun n (st : ind_state) =>
      let! l0 := locate (lower (nth (0, 0) bs n)) (upper (nth (0, 0) bs n)) x in
      Ok (set_nth 0 st.1 n (where3 l0 st.2 (B 0%N)), 1 - where3 l0 1 (B 0%N))) _ leN.
  move=> n st ln; have [l' -> Hl'] := stepf_locate 1 (B 0%N) x (ne n ltac:(lia)).
  rewrite /= !Hl'; congr (Ok (_, 1 - _)).
  by rewrite /stepf; case: rltbP.
move=> /=.
have R j : (j < size bs)%N -> nth 0 f j = if j is m.+1 then S j - S m else S 0%N.
  by move=> lj; rewrite Hf // (@rawE 1 x (fun _ => B 0%N) bs s0 ord joint).
eexists; first by [].
case: periodic s1 leN sf => s1 leN sf; rewrite /n_features /= ?addn0 ?addn1.
  split; first by rewrite size_set_nth sf /n_features addn0; apply/maxn_idPr.
  move=> j lj; rewrite nth_set_nth /= /column (ltn_eqF lj); case: j lj => [|j] lj /=; last by rewrite R.
  rewrite R // -/(S 0%N) -/(S (size bs).-1).
  have [l1|l0] := @S_either 1 x (fun _ => B 0%N) bs s0 ord joint 0 (size bs).-1 ltac:(have := s1 isT; lia).
    rewrite -/(S (size bs).-1) in l1; rewrite l1 Rminus_eq_0 Rplus_0_r.
    by case: rltbP => // h; lra.
  rewrite -/(S 0%N) in l0; rewrite l0 Rplus_0_l; case: rltbP => // h.
  have := @stepf_range (B 0%N) _ x (ne (size bs).-1 ltac:(lia)) Br; rewrite -/(S (size bs).-1); lra.
split; first by rewrite size_set_nth sf /n_features addn1; apply/maxn_idPr.
move=> j lj; rewrite nth_set_nth /= /column; case: (j =P size bs) => // jb.
by rewrite R; [case: j lj jb | lia].
Qed.

Definition slope (B : boundary_fun) (m : nat) (p : R * R) (u : R) : R := B m u / (upper p - lower p) ^ m.

Lemma ind_derivE B bs periodic m x : (m <= 2)%N ->
  (forall n, (n < size bs)%N -> x = upper (nth (0, 0) bs n) -> B m 1 = 0) ->
  ordered bs -> size_ok bs periodic ->
  exists2 f, ind_deriv B bs periodic m x = Ok f &
    size f = n_features (size bs) periodic /\
    forall j, (j < n_features (size bs) periodic)%N -> nth 0 f j = column 0 x (slope B m) bs periodic j.
Proof.
move=> m2 B1 ord [s0 s1].
have ne n : (n < size bs)%N -> (nth (0, 0) bs n).1 <> (nth (0, 0) bs n).2 by exact: ord.1.
pose S n := stepf 0 (slope B m (nth (0, 0) bs n)) (nth (0, 0) bs n) x.
have joint n : (n < size bs)%N -> x = upper (nth (0, 0) bs n) -> slope B m (nth (0, 0) bs n) 1 = 0.
  by move=> ln h; rewrite /slope (B1 n) // /Rdiv Rmult_0_l.
have leN : (size bs <= n_features (size bs) periodic)%N by rewrite /n_features; lia.
rewrite /ind_deriv ltnNge m2 /=; case Ebs : bs => [|p0 bs']; first by rewrite Ebs in s0.
rewrite -Ebs.
have E0 : nth (0, 0) bs 0 = p0 by rewrite Ebs.
have [l El Hl] := stepf_locate 0 (slope B m (nth (0, 0) bs 0)) x (ne 0%N s0).
rewrite E0 in El Hl; rewrite El /=.
have Hl1 : where3 l 0 (slope B m p0) = S 0%N.
  by rewrite Hl /S E0; case: rltbP => // h; rewrite stepf_low.
rewrite -/(slope B m p0) Hl1 -Rminus_0_l.
have [|f -> [sf Hf]] := @ind_loop 0 x (slope B m) bs s0 (fun n (st : ind_state) =>
      let! l0 := locate (lower (nth (0, 0) bs n)) (upper (nth (0, 0) bs n)) x in
      Ok (set_nth 0 st.1 n (where3 l0 st.2 (fun u => B m u / (upper (nth (0, 0) bs n) - lower (nth (0, 0) bs n)) ^ m)),
          - where3 l0 0 (fun u => B m u / (upper (nth (0, 0) bs n) - lower (nth (0, 0) bs n)) ^ m))) _ leN.
  move=> n st ln; have [l' -> Hl'] := stepf_locate 0 (slope B m (nth (0, 0) bs n)) x (ne n ltac:(lia)).
  rewrite /= -/(slope B m (nth (0, 0) bs n)) !Hl' -Rminus_0_l; congr (Ok (_, 0 - _)).
  by rewrite /stepf; case: rltbP.
move=> /=.
have R j : (j < size bs)%N -> nth 0 f j = if j is m.+1 then S j - S m else S 0%N.
  by move=> lj; rewrite Hf // (@rawE 0 x (slope B m) bs s0 ord joint).
eexists; first by [].
case: periodic s1 leN sf => s1 leN sf; rewrite /n_features /= ?addn0 ?addn1.
  split; first by rewrite size_set_nth sf /n_features addn0; apply/maxn_idPr.
  move=> j lj; rewrite nth_set_nth /= /column (ltn_eqF lj); case: j lj => [|j] lj /=; last by rewrite R.
  rewrite R // -/(S 0%N) -/(S (size bs).-1).
  have [l1|l0] := @S_either 0 x (slope B m) bs s0 ord joint 0 (size bs).-1 ltac:(have := s1 isT; lia).
    rewrite -/(S (size bs).-1) in l1; rewrite l1 Rminus_eq_0 Rplus_0_r.
    by case: Req_EM_T => // h; lra.
  by rewrite -/(S 0%N) in l0; rewrite l0 Rplus_0_l; case: Req_EM_T.
split; first by rewrite size_set_nth sf /n_features addn1; apply/maxn_idPr.
move=> j lj; rewrite nth_set_nth /= /column; case: (j =P size bs) => // jb.
by rewrite R; [case: j lj jb | lia].
Qed.

(** ** Consequences *)
Lemma column_sum K x F bs periodic : (0 < size bs)%N ->
  rsum (n_features (size bs) periodic) (column K x F bs periodic) = K.
Proof.
move=> s0; pose S n := stepf K (F (nth (0, 0) bs n)) (nth (0, 0) bs n) x.
have T (n : nat) (c0 : R) (c : nat -> R) : c 0%N = S 0%N + c0 -> (forall j, (j < n)%N -> c j.+1 = S j.+1 - S j) ->
  rsum n.+1 c = S n + c0.
  move=> h0; elim: n => [|n IH] H; first by rewrite /= h0; ring.
  by rewrite -[LHS]/(rsum n.+1 c + c n.+1) IH ?H //; [ring | move=> j lj; apply: H; lia].
case: periodic; rewrite /n_features /= ?addn0 ?addn1.
  rewrite -(prednK s0) (T _ (K - S (size bs).-1)).
  - by rewrite /=; ring.
  - by rewrite /column (ltn_eqF s0).
  - by move=> j lj; rewrite /column ltn_eqF //; lia.
rewrite -[LHS]/(rsum (size bs) _ + column K x F bs false (size bs)) {2}/column eqxx.
rewrite -{1}(prednK s0) (T _ 0).
- by rewrite -/(S (size bs).-1); ring.
- by rewrite /column (ltn_eqF s0) Rplus_0_r.
- by move=> j lj; rewrite /column ltn_eqF //; lia.
Qed.

Lemma column_range x B bs periodic j : from1to0 B -> ordered bs -> size_ok bs periodic ->
  (j < n_features (size bs) periodic)%N -> 0 <= column 1 x (fun _ => B 0%N) bs periodic j <= 1.
Proof.
move=> [B0 B1 Br] ord [s0 s1] lj.
have rg n : (n < size bs)%N -> 0 <= stepf 1 (B 0%N) (nth (0, 0) bs n) x <= 1.
  by move=> ln; apply: stepf_range => //; apply: ord.1.
have ei := @S_either 1 x (fun _ => B 0%N) bs s0 ord (fun _ _ _ => B1).
rewrite /column; case: (j =P size bs) => jb; first by have := rg (size bs).-1 ltac:(lia); lra.
have {}lj : (j < size bs)%N by move: lj; rewrite /n_features; case: (periodic) => /=; lia.
case: j lj jb => [|j] lj jb; last first.
  by have := rg j ltac:(lia); have := rg j.+1 lj; case: (ei j j.+1 ltac:(lia)) => ->; lra.
case: (periodic) s1 => s1; last exact: rg.
have := rg 0%N s0; have := rg (size bs).-1 ltac:(lia).
by case: (ei 0%N (size bs).-1 ltac:(have := s1 isT; lia)) => ->; lra.
Qed.

Lemma is_derive_sum2 (f g : R -> R) x lf lg : is_derive f x lf -> is_derive g x lg -> is_derive (fun y => f y + g y) x (lf + lg).
Proof. exact: is_derive_plus. Qed.
Lemma is_derive_sub2 (f g : R -> R) x lf lg : is_derive f x lf -> is_derive g x lg -> is_derive (fun y => f y - g y) x (lf - lg).
Proof. exact: is_derive_minus. Qed.

Lemma column_derive K (F F' : R * R -> R -> R) bs periodic j x : (0 < size bs)%N ->
  (j < n_features (size bs) periodic)%N ->
  (forall n, (n < size bs)%N -> is_derive (stepf K (F (nth (0, 0) bs n)) (nth (0, 0) bs n)) x
                                   (stepf 0 (F' (nth (0, 0) bs n)) (nth (0, 0) bs n) x)) ->
  is_derive (fun y => column K y F bs periodic j) x (column 0 x F' bs periodic j).
Proof.
move=> s0 lj D; rewrite /column.
have cst n : (n < size bs)%N -> is_derive (fun y => K - stepf K (F (nth (0, 0) bs n)) (nth (0, 0) bs n) y) x
   (0 - stepf 0 (F' (nth (0, 0) bs n)) (nth (0, 0) bs n) x).
  by move=> ln; apply: is_derive_sub2; [exact: is_derive_const | exact: D].
case: (j =P size bs) => jb; first by apply: cst; lia.
have {}lj : (j < size bs)%N by move: lj; rewrite /n_features; case: (periodic) => /=; lia.
case: j lj jb => [|j] lj jb; last by apply: is_derive_sub2; apply: D; lia.
by case: (periodic); [apply: is_derive_sum2; [exact: D | apply: cst; lia] | exact: D].
Qed.

Lemma stepf_ext K f g p x : (forall u, f u = g u) -> stepf K f p x = stepf K g p x.
Proof. by move=> E; rewrite /stepf; case: rltb => //; case: rltb. Qed.

Lemma basis_step B p x : p.1 <> p.2 -> from1to0 B -> differentiable1 B ->
  is_derive (stepf 1 (B 0%N) p) x (stepf 0 (slope B 1 p) p x).
Proof.
move=> ne [B0 B1 _] [D0 D1 D].
rewrite (@stepf_ext _ _ (fun u => B 1%N u / (upper p - lower p))); first exact: stepf_derive.
by move=> u; rewrite /slope /= Rmult_1_r.
Qed.
Lemma deriv_step B p x : p.1 <> p.2 -> differentiable1 B -> differentiable2 B ->
  (x = lower p -> B 2%N 0 = 0) -> (x = upper p -> B 2%N 1 = 0) ->
  is_derive (stepf 0 (slope B 1 p) p) x (stepf 0 (slope B 2 p) p x).
Proof.
move=> ne [D0 D1 _] D Ha Hb; have ab := lower_lt ne.
rewrite (@stepf_ext _ (slope B 2 p) (fun u => slope B 1 p u * 0 + (B 2%N u / (upper p - lower p)) / (upper p - lower p))); last first.
  by move=> u; rewrite /slope; field; lra.
rewrite (@stepf_ext _ _ (fun u => (B 2%N u / (upper p - lower p)) / (upper p - lower p))); last by move=> u; ring.
apply: (@stepf_derive _ _ (fun u => B 2%N u / (upper p - lower p))) => //.
- move=> u; apply: (is_derive_ext (fun u => / (upper p - lower p) * B 1%N u)) => [y|]; first by rewrite /slope /=; field; lra.
  rewrite (_ : B 2%N u / _ = / (upper p - lower p) * B 2%N u); last by rewrite /Rdiv Rmult_comm.
  exact: (@is_derive_scal (B 1%N)).
- by move=> h; rewrite /slope D0 Ha // /Rdiv !Rmult_0_l.
- by move=> h; rewrite /slope D1 Hb // /Rdiv !Rmult_0_l.
Qed.
