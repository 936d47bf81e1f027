(** * Global basis functions: entries of the arrays and their derivatives. *)
From Coq Require Import Reals Lra Lia.
From Coquelicot Require Import Coquelicot.
From mathcomp Require Import all_ssreflect zify.
From Verif Require Import Base Basis Calculus.
Set Implicit Arguments.
Unset Strict Implicit.
Unset Printing Implicit Defensive.
Local Open Scope R_scope.

(** ** Loops *)
Lemma loop_out (body : nat -> tens -> tens) lo hi z j :
  (forall n f, (lo <= n < hi)%N -> body n f j = f j) -> loop lo hi body z j = z j.
Proof.
move=> H; rewrite /loop.
have {H} : forall n f, n \in iota lo (hi - lo) -> body n f j = f j.
  by move=> n f; rewrite mem_iota => h; apply: H; lia.
elim: (iota _ _) z => //= n l IH z H; rewrite IH ?H ?in_cons ?eqxx // => m f hm.
by apply: H; rewrite in_cons hm orbT.
Qed.
Lemma loop_in (body : nat -> tens -> tens) lo hi z j n v :
  (lo <= n < hi)%N -> (forall f, body n f j = v) ->
  (forall m f, (lo <= m < hi)%N -> m <> n -> body m f j = f j) -> loop lo hi body z j = v.
Proof.
move=> nr Hn H; rewrite /loop.
have {H} : forall m f, m \in iota lo (hi - lo) -> m <> n -> body m f j = f j.
  by move=> m f; rewrite mem_iota => h; apply: H; lia.
have : n \in iota lo (hi - lo) by rewrite mem_iota; lia.
have : uniq (iota lo (hi - lo)) by exact: iota_uniq.
elim: (iota _ _) z => //= m l IH z /andP[ml ul]; rewrite in_cons => /orP[/eqP E|nl] H; last first.
  by apply: IH => // k f kl; apply: H; rewrite in_cons kl orbT.
subst m; rewrite -(Hn z).
have {}H : forall k f, k \in l -> body k f j = f j.
  move=> k f kl; apply: H; first by rewrite in_cons kl orbT.
  by move=> E; rewrite -E kl in ml.
elim: l (body n z) {IH ml ul} H => //= m l IH z' H; rewrite IH ?H ?in_cons ?eqxx // => k f kl.
by apply: H; rewrite in_cons kl orbT.
Qed.
Lemma tset_eq a idx v : tset a idx v idx = v. Proof. by rewrite /tset eqxx. Qed.
Lemma tset_neq a idx v j : j <> idx -> tset a idx v j = a j.
Proof. by move=> /eqP/negbTE h; rewrite /tset h. Qed.

(** The double loop of the separable bases: column [(n - c) * dim + i], and [i] repeated. *)
Definition fill (c hi dim order : nat) (val : nat -> nat -> R) : tens :=
  loop c hi (fun n f =>
    loop 0 dim (fun i f => tset f (((n - c) * dim + i)%N :: nseq order i) (val n i)) f) zeros.

Lemma fill_diag c hi dim order val n i : (c + n < hi)%N -> (i < dim)%N ->
  fill c hi dim order val ((n * dim + i)%N :: nseq order i) = val (c + n)%N i.
Proof.
move=> ln li; rewrite /fill; apply: (@loop_in _ _ _ _ _ (c + n)%N); first lia.
  move=> f; apply: (@loop_in _ _ _ _ _ i); first lia.
    by move=> g; rewrite (_ : (c + n - c)%N = n); [exact: tset_eq | lia].
  by move=> m g mr mi; apply: tset_neq => -[]; nia.
move=> m f mr mn; apply: loop_out => k g kr; apply: tset_neq => -[E _]; apply: mn.
have : (m - c = n)%N; last lia.
have := edivn_eq n li; have kd : (k < dim)%N by lia.
by rewrite E (edivn_eq _ kd) => -[].
Qed.
Lemma fill_zero c hi dim order val n i idx : (i < dim)%N ->
  idx <> nseq order i -> fill c hi dim order val ((n * dim + i)%N :: idx) = 0.
Proof.
move=> li ne; rewrite /fill; apply: loop_out => m f mr; apply: loop_out => k g kr.
apply: tset_neq => -[E1 E2]; apply: ne; rewrite E2; congr nseq.
have kd : (k < dim)%N by lia.
by have := edivn_eq n li; rewrite E1 (edivn_eq _ kd) => -[].
Qed.


Lemma loop_ext S lo hi (b b' : nat -> S -> S) s : (forall n s, b n s = b' n s) -> loop lo hi b s = loop lo hi b' s.
Proof. by move=> H; rewrite /loop; elim: (iota _ _) s => //= n l IH s; rewrite H IH. Qed.
Lemma fill0E hi dim val :
  loop 0 hi (fun n f => loop 0 dim (fun i f => tset f [:: (n * dim + i)%N] (val n i)) f) zeros = fill 0 hi dim 0 val.
Proof. by rewrite /fill; apply: loop_ext => n s; rewrite subn0. Qed.

(** ** The specification of a separable basis

    Column [n * dim + i] is the [n]-th function of one variable, applied to coordinate [i]. *)
(** [has_gradient dim cols b db]: for each column, the last index of [db] runs over the gradient of [b]. *)
Definition has_gradient (dim : nat) (b : (nat -> R) -> tens) (db : (nat -> R) -> tens) (k k' : nat) (idx : seq nat) :=
  forall x, gradient_at dim (fun y => b y (k :: idx)) x (fun i => db x (k' :: rcons idx i)).

Lemma fill_gradient dim c hi c' m (val dval : (nat -> R) -> nat -> nat -> R) (phi dphi : nat -> R -> R) n i idx :
  (forall x n i, val x n i = phi n (x i)) -> (forall x n i, dval x n i = dphi n (x i)) ->
  (forall n t, is_derive (phi n) t (dphi n t)) ->
  (c <= c' + n)%N -> (c' + n < hi)%N -> (i < dim)%N -> size idx = m ->
  has_gradient dim (fun x => fill c hi dim m (val x)) (fun x => fill c' hi dim m.+1 (dval x))
    ((c' + n - c) * dim + i)%N (n * dim + i)%N idx.
Proof.
move=> Ev Ed D cn nh li si x.
case: (idx =P nseq m i) => [->|ne].
  apply: (@gradient_ext dim (fun y => phi (c' + n)%N (y i)) _ _ (fun j => if j == i then dphi (c' + n)%N (x i) else 0)).
  - move=> y; rewrite fill_diag //; last lia.
    by rewrite Ev; congr phi; lia.
  - move=> j lj; case: (j =P i) => [->|ji].
      rewrite (_ : rcons (nseq m i) i = nseq m.+1 i); last by elim: (m) => //= k ->.
      by rewrite fill_diag // Ed.
    have L k : last i (nseq k i) = i by elim: k.
    by rewrite fill_zero // => /(congr1 (fun s => last i s)); rewrite last_rcons L.
  - exact: gradient_coord.
apply: (@gradient_ext dim (fun _ => 0) _ _ (fun _ => 0)); last exact: gradient_const.
  by move=> y; rewrite fill_zero.
move=> j lj; rewrite fill_zero // => E; apply: ne.
have := congr1 (take m) E; rewrite -cats1 take_cat si ltnn subnn take0 cats0 => ->.
by rewrite -[in nseq m.+1 _]addn1 nseqD take_cat size_nseq ltnn subnn take0 cats0.
Qed.

Lemma fill_gradient_k dim c hi c' m (val dval : (nat -> R) -> nat -> nat -> R) (phi dphi : nat -> R -> R) k idx :
  (forall x n i, val x n i = phi n (x i)) -> (forall x n i, dval x n i = dphi n (x i)) ->
  (forall n t, is_derive (phi n) t (dphi n t)) ->
  (c <= c')%N -> (k < (hi - c') * dim)%N -> size idx = m ->
  has_gradient dim (fun x => fill c hi dim m (val x)) (fun x => fill c' hi dim m.+1 (dval x))
    ((c' - c) * dim + k)%N k idx.
Proof.
move=> Ev Ed D cc lk si.
have d0 : (0 < dim)%N by case: dim lk => // ; rewrite muln0.
rewrite (divn_eq k dim).
have lt := ltn_pmod k d0.
have ln : (k %/ dim < hi - c')%N by rewrite ltn_divLR.
have := @fill_gradient dim c hi c' m val dval phi dphi (k %/ dim) (k %% dim) idx Ev Ed D _ _ lt si.
have -> : ((c' + k %/ dim - c) * dim + k %% dim)%N = ((c' - c) * dim + (k %/ dim * dim + k %% dim))%N.
  by rewrite addnA -mulnDl; congr (_ * _ + _)%N; clear -cc; move: (k %/ dim) => q; lia.
by apply; clear -cc ln; move: (k %/ dim) ln => q; lia.
Qed.

(** The antiderivative: column [k] is the integral along its own coordinate, [k %% dim]. *)
Lemma fill_integral dim hi (val dval : (nat -> R) -> nat -> nat -> R) (phi dphi : nat -> R -> R) k x :
  (forall x n i, val x n i = phi n (x i)) -> (forall x n i, dval x n i = dphi n (x i)) ->
  (forall n t, (n < hi)%N -> is_derive (phi n) t (dphi n t)) ->
  (k < hi * dim)%N ->
  gradient_at dim (fun y => fill 0 hi dim 0 (val y) [:: k]) x
    (fun i => if i == (k %% dim)%N then fill 0 hi dim 0 (dval x) [:: k] else 0).
Proof.
move=> Ev Ed D lk.
have d0 : (0 < dim)%N by case: dim lk => // ; rewrite muln0.
have lt := ltn_pmod k d0.
have ln : (k %/ dim < hi)%N by rewrite ltn_divLR.
have F (v : nat -> nat -> R) : fill 0 hi dim 0 v [:: k] = v (k %/ dim)%N (k %% dim)%N.
  by rewrite [in LHS](divn_eq k dim) (@fill_diag 0 hi dim 0 v _ _ ln lt).
apply: (@gradient_ext dim (fun y => phi (k %/ dim)%N (y (k %% dim)%N)) _ _
  (fun j => if j == (k %% dim)%N then dphi (k %/ dim)%N (x (k %% dim)%N) else 0)).
- by move=> y; rewrite F Ev.
- by move=> j lj; rewrite F Ed.
by apply: gradient_coord => //; apply: D.
Qed.

(** ** Linear features *)
Lemma lin_basisE dim mean x k : (k < dim)%N -> lin_basis dim mean x [:: k] = x k - mean k.
Proof.
move=> lk; apply: (@loop_in _ _ _ _ _ k) => [|f|m f mr mk]; [lia | exact: tset_eq | ].
by apply: tset_neq => -[E]; apply: mk.
Qed.
Lemma lin_derivE dim x k i : (k < dim)%N -> lin_deriv dim 1 x [:: k; i] = if i == k then 1 else 0.
Proof.
move=> lk; rewrite /lin_deriv /=; case: (i =P k) => [->|ik].
  apply: (@loop_in _ _ _ _ _ k) => [|f|m f mr mk]; [lia | exact: tset_eq | ].
  by apply: tset_neq => -[E _]; apply: mk.
by apply: loop_out => n f _; apply: tset_neq => -[E1 E2]; apply: ik; rewrite E2 -E1.
Qed.
Lemma lin_antiderivativeE dim m x k : (k < dim)%N -> lin_antiderivative dim m x [:: k] = 1 / 2 * x k ^ 2.
Proof.
move=> lk; apply: (@loop_in _ _ _ _ _ k) => [|f|m' f mr mk]; [lia | exact: tset_eq | ].
by apply: tset_neq => -[E]; apply: mk.
Qed.

Lemma lin_gradient dim mean k : (k < dim)%N ->
  has_gradient dim (lin_basis dim mean) (lin_deriv dim 1) k k [::].
Proof.
move=> lk x; apply: (@gradient_ext dim (fun y => y k - mean k) _ _ (fun i => if i == k then 1 else 0)).
- by move=> y; rewrite lin_basisE.
- by move=> i li; rewrite /= lin_derivE.
by apply: (@gradient_coord dim k (fun t => t - mean k)) => //; auto_derive => //; ring.
Qed.
Lemma lin_hessian_gradient dim k i : (k < dim)%N ->
  has_gradient dim (lin_deriv dim 1) (lin_hessian dim) k k [:: i].
Proof.
move=> lk x; apply: (@gradient_ext dim (fun _ => if i == k then 1 else 0) _ _ (fun _ => 0)).
- by move=> y; rewrite lin_derivE.
- by move=> j lj.
exact: gradient_const.
Qed.
Lemma lin_integral dim m k x : (k < dim)%N ->
  gradient_at dim (fun y => lin_antiderivative dim m y [:: k]) x
    (fun i => if i == (k %% dim)%N then lin_basis dim (fun _ => 0) x [:: k] else 0).
Proof.
move=> lk; apply: (@gradient_ext dim (fun y => 1 / 2 * y k ^ 2) _ _ (fun i => if i == k then x k - 0 else 0)).
- by move=> y; rewrite lin_antiderivativeE.
- by move=> i li; rewrite lin_basisE // modn_small.
by apply: (@gradient_coord dim k (fun t => 1 / 2 * t ^ 2)) => //; auto_derive => //; field.
Qed.

(** ** Polynomials *)
Lemma pevalE p t : peval p t = Colored.rsum (size p) (fun k => nth 0 p k * t ^ k).
Proof.
elim: p => //= c q ->; rewrite -[RHS]/(Colored.rsum (size q).+1 (fun k => nth 0 (c :: q) k * t ^ k)).
rewrite ColoredProofs3.rsum_Sl /= Rmult_1_r; congr (_ + _).
rewrite ColoredProofs4.rsum_mull; apply: ColoredProofs.rsum_ext => k _; ring.
Qed.
Lemma is_derive_rsum n (f df : nat -> R -> R) t : (forall k, (k < n)%N -> is_derive (f k) t (df k t)) ->
  is_derive (fun s => Colored.rsum n (fun k => f k s)) t (Colored.rsum n (fun k => df k t)).
Proof.
elim: n => [|n IH] H /=; first exact: is_derive_const.
by apply: (@is_derive_plus _ _ (fun s => Colored.rsum n (fun k => f k s)) (f n)); [apply: IH => k lk; apply: H; lia | apply: H].
Qed.
Lemma is_derive_peval p t : is_derive (peval p) t (peval (pderiv1 p) t).
Proof.
apply: (is_derive_ext (fun s => Colored.rsum (size p) (fun k => nth 0 p k * s ^ k))) => [s|]; first by rewrite pevalE.
have -> : peval (pderiv1 p) t = Colored.rsum (size p) (fun k => nth 0 p k * (INR k * t ^ k.-1)).
  rewrite pevalE /pderiv1 size_mkseq; case: p => [|c q] //.
  rewrite -[(size (c :: q)).-1]/(size q) -[RHS]/(Colored.rsum (size q).+1 (fun k => nth 0 (c :: q) k * (INR k * t ^ k.-1))).
  rewrite ColoredProofs3.rsum_Sl; rewrite [INR 0]/= Rmult_0_l Rmult_0_r Rplus_0_l.
  apply: ColoredProofs.rsum_ext => k lk; rewrite nth_mkseq // -[k.+1.-1]/k -[nth 0 (c :: q) k.+1]/(nth 0 q k).
  have [NN ->] : exists N, INR k.+1 = N by exists (INR k.+1).
  ring.
apply: (@is_derive_rsum _ (fun k s => nth 0 p k * s ^ k) (fun k s => nth 0 p k * (INR k * s ^ k.-1))) => k lk.
have : is_derive (fun s => s ^ k) t (INR k * 1 * t ^ k.-1).
  by apply: is_derive_pow; exact: is_derive_id.
by rewrite Rmult_1_r => H; apply: (@is_derive_scal (fun s => s ^ k)).
Qed.
Lemma pderiv_integ p : pderiv1 (pinteg1 p) = p.
Proof.
have S : (size (pinteg1 p)).-1 = size p by rewrite /= size_mkseq.
rewrite /pderiv1 S; apply: (@eq_from_nth _ 0); rewrite size_mkseq // => k lk.
rewrite nth_mkseq // (_ : nth 0 (pinteg1 p) k.+1 = nth 0 p k / INR k.+1); last first.
  by rewrite -[LHS]/(nth 0 (mkseq (fun k => nth 0 p k / INR k.+1) (size p)) k) nth_mkseq.
have := not_0_INR k.+1.
have [NN ->] : exists N, INR k.+1 = N by exists (INR k.+1).
by move=> H; field; apply: H.
Qed.
Lemma is_derive_pinteg p t : is_derive (peval (pinteg1 p)) t (peval p t).
Proof. by rewrite -{2}(pderiv_integ p); exact: is_derive_peval. Qed.
Lemma pderiv_const p : (size p <= 1)%N -> pderiv1 p = [::].
Proof. by case: p => [|c [|c' q]]. Qed.

Section Poly.
Variables (P : nat -> seq R) (deg dim : nat) (rc : bool).
Lemma poly_basisE x : poly_basis P deg dim x = fill 0 deg.+1 dim 0 (fun n i => peval (P n) (x i)).
Proof. exact: fill0E. Qed.
Lemma poly_derivE m x : poly_deriv P deg dim rc m x =
  fill (bint rc) deg.+1 dim m (fun n i => peval (pderiv m (P n)) (x i)).
Proof. by []. Qed.
Lemma poly_antiderivativeE m x : poly_antiderivative P deg dim m x =
  fill 0 deg.+1 dim 0 (fun n i => peval (pinteg m (P n)) (x i)).
Proof. exact: fill0E. Qed.

Lemma has_gradient_ext b b' db db' k k' idx : (forall x, b x = b' x) -> (forall x, db x = db' x) ->
  has_gradient dim b db k k' idx -> has_gradient dim b' db' k k' idx.
Proof.
move=> Eb Ed H x; apply: (gradient_ext _ _ (H x)); first by move=> y; rewrite Eb.
by move=> i _; rewrite Ed.
Qed.

Lemma poly_gradient k : (k < dim * (deg.+1 - bint rc))%N ->
  has_gradient dim (poly_basis P deg dim) (poly_deriv P deg dim rc 1) (bint rc * dim + k) k [::].
Proof.
rewrite mulnC => lk.
apply: (has_gradient_ext (fun x => esym (poly_basisE x)) (fun x => esym (poly_derivE 1 x))).
have := @fill_gradient_k dim 0 deg.+1 (bint rc) 0 (fun x n i => peval (P n) (x i))
  (fun x n i => peval (pderiv 1 (P n)) (x i)) (fun n => peval (P n)) (fun n => peval (pderiv1 (P n))) k [::].
by rewrite subn0; apply => // n t; exact: is_derive_peval.
Qed.
Lemma poly_gradient_next m k idx : (k < dim * (deg.+1 - bint rc))%N -> size idx = m ->
  has_gradient dim (poly_deriv P deg dim rc m) (poly_deriv P deg dim rc m.+1) k k idx.
Proof.
rewrite mulnC => lk si.
apply: (has_gradient_ext (fun x => esym (poly_derivE m x)) (fun x => esym (poly_derivE m.+1 x))).
have := @fill_gradient_k dim (bint rc) deg.+1 (bint rc) m (fun x n i => peval (pderiv m (P n)) (x i))
  (fun x n i => peval (pderiv m.+1 (P n)) (x i)) (fun n => peval (pderiv m (P n))) (fun n => peval (pderiv m.+1 (P n))) k idx.
rewrite subnn mul0n add0n; apply=> // n t; exact: is_derive_peval.
Qed.
Lemma poly_const_gradient i x : (size (P 0%N) <= 1)%N -> (i < dim)%N ->
  gradient_at dim (fun y => poly_basis P deg dim y [:: i]) x (fun _ => 0).
Proof.
move=> sP li; have H := @fill_gradient_k dim 0 deg.+1 0 0 (fun x n i => peval (P n) (x i))
  (fun x n i => peval (pderiv 1 (P n)) (x i)) (fun n => peval (P n)) (fun n => peval (pderiv1 (P n))) i [::].
have {}H : has_gradient dim (fun x => fill 0 deg.+1 dim 0 (fun n i => peval (P n) (x i)))
  (fun x => fill 0 deg.+1 dim 1 (fun n i => peval (pderiv1 (P n)) (x i))) i i [::].
  apply: H => //; first by move=> n t; exact: is_derive_peval.
  by rewrite subn0 mulSn; lia.
apply: (gradient_ext _ _ (H x)) => [y|j lj]; first by rewrite poly_basisE.
rewrite [rcons _ _]/=; case: (j =P i) => [->|ji].
  have := @fill_diag 0 deg.+1 dim 1 (fun n i => peval (pderiv1 (P n)) (x i)) 0 i.
  by rewrite mul0n add0n => -> //; rewrite pderiv_const.
have := @fill_zero 0 deg.+1 dim 1 (fun n i => peval (pderiv1 (P n)) (x i)) 0 i [:: j] li.
by rewrite mul0n add0n; apply => -[].
Qed.
Lemma poly_integral m k x : (k < dim * deg.+1)%N ->
  gradient_at dim (fun y => poly_antiderivative P deg dim m.+1 y [:: k]) x
    (fun i => if i == (k %% dim)%N then poly_antiderivative P deg dim m x [:: k] else 0).
Proof.
rewrite mulnC => lk; rewrite poly_antiderivativeE.
have := @fill_integral dim deg.+1 (fun x n i => peval (pinteg m.+1 (P n)) (x i)) (fun x n i => peval (pinteg m (P n)) (x i))
  (fun n => peval (pinteg m.+1 (P n))) (fun n => peval (pinteg m (P n))) k x.
move=> H; apply: (gradient_ext _ _ (H _ _ _ lk)) => // [y|n t _]; first by rewrite poly_antiderivativeE.
exact: is_derive_pinteg.
Qed.
Lemma poly_antiderivative0 x : poly_antiderivative P deg dim 0 x = poly_basis P deg dim x.
Proof. by []. Qed.
End Poly.

(** ** Fourier series *)
Section Fourier.
Variables (order : nat) (freq : R) (dim : nat) (rc : bool).
Definition four_fun (n : nat) (t : R) : R :=
  if n == 0%N then 1 / sqrt (2 * PI)
  else if (n %% 2 == 0)%N then cos (half n * t * freq) / sqrt PI
  else sin (half n.+1 * t * freq) / sqrt PI.
Definition four_dfun (n : nat) (t : R) : R :=
  if (n %% 2 == 0)%N then - half n * freq * sin (half n * freq * t) / sqrt PI
  else half n.+1 * freq * cos (half n.+1 * freq * t) / sqrt PI.
Definition four_ddfun (n : nat) (t : R) : R :=
  if (n %% 2 == 0)%N then - (half n * freq) ^ 2 * cos (half n * freq * t) / sqrt PI
  else - (half n.+1 * freq) ^ 2 * sin (half n.+1 * freq * t) / sqrt PI.
Definition four_ifun (n : nat) (t : R) : R :=
  if n == 0%N then t / sqrt (2 * PI)
  else if (n %% 2 == 0)%N then sin (half n * t * freq) / (sqrt PI * INR n / 2 * freq)
  else -1 * cos (half n.+1 * t * freq) / (sqrt PI * INR n.+1 / 2 * freq).
Lemma four_basisE x : four_basis order freq dim x = fill 0 (four_order order) dim 0 (fun n i => four_fun n (x i)).
Proof. exact: (@fill0E _ _ (fun n i => four_fun n (x i))). Qed.
Lemma four_deriv1E x : four_deriv order freq dim rc 1 x = fill (bint rc) (four_order order) dim 1 (fun n i => four_dfun n (x i)).
Proof. by []. Qed.
Lemma four_hessianE x : four_hessian order freq dim rc x = fill (bint rc) (four_order order) dim 2 (fun n i => four_ddfun n (x i)).
Proof. by []. Qed.
Lemma sqrt_PI0 : sqrt PI <> 0.
Proof. by have := sqrt_lt_R0 PI PI_RGT_0; lra. Qed.
Lemma sqrt_2PI0 : sqrt (2 * PI) <> 0.
Proof. by have := sqrt_lt_R0 (2 * PI) ltac:(have := PI_RGT_0; lra); lra. Qed.
Lemma half0 : half 0 = 0. Proof. by rewrite /half /=; field. Qed.
Lemma is_derive_four n t : is_derive (four_fun n) t (four_dfun n t).
Proof.
have s0 := sqrt_PI0; rewrite /four_fun /four_dfun; case: (n =P 0%N) => [->|n0].
  rewrite mod0n eqxx half0 [X in is_derive _ _ X](_ : _ = 0); first exact: is_derive_const.
  by field.
have [h ->] : exists h, half n = h by exists (half n).
have [h' ->] : exists h, half n.+1 = h by exists (half n.+1).
have -> : h * freq * t = h * t * freq by ring.
have -> : h' * freq * t = h' * t * freq by ring.
by case: (n %% 2 == 0)%N; auto_derive => //; field.
Qed.
Lemma is_derive_dfour n t : is_derive (four_dfun n) t (four_ddfun n t).
Proof.
have s0 := sqrt_PI0; rewrite /four_dfun /four_ddfun.
have [h ->] : exists h, half n = h by exists (half n).
have [h' ->] : exists h, half n.+1 = h by exists (half n.+1).
by case: (n %% 2 == 0)%N; auto_derive => //; field.
Qed.
Lemma is_derive_ifour n t : freq <> 0 \/ (n = 0)%N -> is_derive (four_ifun n) t (four_fun n t).
Proof.
have s0 := sqrt_PI0; have s2 := sqrt_2PI0; rewrite /four_ifun /four_fun; case: (n =P 0%N) => [->|n0].
  by move=> _; auto_derive => //; field.
case=> // f0.
have N0 : INR n <> 0 by apply: not_0_INR.
have N1 : INR n.+1 <> 0 by apply: not_0_INR.
rewrite /half.
move: N0 N1; have [N ->] : exists N, INR n = N by exists (INR n).
have [N' ->] : exists N, INR n.+1 = N by exists (INR n.+1).
by move=> N0 N1; case: (n %% 2 == 0)%N; auto_derive => //; field.
Qed.

Lemma four_gradient k : (k < dim * (four_order order - bint rc))%N ->
  has_gradient dim (four_basis order freq dim) (four_deriv order freq dim rc 1) (bint rc * dim + k) k [::].
Proof.
rewrite mulnC => lk.
apply: (has_gradient_ext (fun x => esym (four_basisE x)) (fun x => esym (four_deriv1E x))).
have := @fill_gradient_k dim 0 (four_order order) (bint rc) 0 (fun x n i => four_fun n (x i))
  (fun x n i => four_dfun n (x i)) four_fun four_dfun k [::].
by rewrite subn0; apply => //; exact: is_derive_four.
Qed.
Lemma four_hessian_gradient k i : (k < dim * (four_order order - bint rc))%N ->
  has_gradient dim (four_deriv order freq dim rc 1) (four_hessian order freq dim rc) k k [:: i].
Proof.
rewrite mulnC => lk.
apply: (has_gradient_ext (fun x => esym (four_deriv1E x)) (fun x => esym (four_hessianE x))).
have := @fill_gradient_k dim (bint rc) (four_order order) (bint rc) 1 (fun x n i => four_dfun n (x i))
  (fun x n i => four_ddfun n (x i)) four_dfun four_ddfun k [:: i].
by rewrite subnn mul0n add0n; apply=> //; exact: is_derive_dfour.
Qed.
Lemma four_const_gradient i x : (i < dim)%N ->
  gradient_at dim (fun y => four_basis order freq dim y [:: i]) x (fun _ => 0).
Proof.
move=> li.
apply: (@gradient_ext dim (fun _ => 1 / sqrt (2 * PI)) _ _ (fun _ => 0)) => //; last exact: gradient_const.
move=> y; rewrite four_basisE.
have := @fill_diag 0 (four_order order) dim 0 (fun n i => four_fun n (y i)) 0 i.
by rewrite mul0n add0n => -> //; rewrite /four_order; lia.
Qed.
Lemma four_integral k x : (freq <> 0 \/ order = 0%N) -> (k < dim * four_order order)%N ->
  exists2 A, forall y, four_antiderivative order freq dim 1 y = Ok (A y) &
  gradient_at dim (fun y => A y [:: k]) x
    (fun i => if i == (k %% dim)%N then four_basis order freq dim x [:: k] else 0).
Proof.
rewrite mulnC => f0 lk.
exists (fun y => fill 0 (four_order order) dim 0 (fun n i => four_ifun n (y i))).
  move=> y; rewrite /four_antiderivative /=.
  have -> : ((0 < order)%N && (if Req_EM_T freq 0 then true else false)) = false.
    case: f0 => [f0|->] //; case: (Req_EM_T freq 0) => e /=; last by rewrite andbF.
    by case: (f0 e).
  by rewrite -(@fill0E _ _ (fun n i => four_ifun n (y i))).
rewrite four_basisE.
apply: (@fill_integral dim (four_order order) (fun y n i => four_ifun n (y i)) (fun y n i => four_fun n (y i)) four_ifun four_fun) => // n t ln.
apply: is_derive_ifour; case: f0 => [f0|o0]; [by left | right].
by move: ln; rewrite o0 /four_order; lia.
Qed.
End Fourier.
