(** * Exponential, logarithm and matrix exponential over the real numbers.

    The contracts of /PronyEvalSpec.v/ hold for the exponential of complex numbers, its
    principal logarithm and a matrix exponential. *)
From Coq Require Import Reals Lra ClassicalEpsilon.
From mathcomp Require Import all_ssreflect all_algebra.
From mathcomp Require Import complex.
From Verif Require Import RealsMC PronyEvalSpec PronyEvalProofs.
Set Implicit Arguments.
Unset Strict Implicit.
Unset Printing Implicit Defensive.
Import Order.TTheory GRing.Theory Num.Theory.
Local Open Scope ring_scope.
Local Open Scope complex_scope.

Local Notation C := (R[i]).
Local Notation Re := (@complex.Re R_rcfType).
Local Notation Im := (@complex.Im R_rcfType).

Local Ltac rring := match goal with |- @eq _ ?x ?y => change (@eq Rdefinitions.R x y); ring end.
Local Ltac rfield := match goal with |- @eq _ ?x ?y => change (@eq Rdefinitions.R x y); field end.

Definition cexp (z : C) : C := Complex (Rmult (exp (Re z)) (cos (Im z))) (Rmult (exp (Re z)) (sin (Im z))).

Definition cabs (z : C) : R := sqrt (Rplus (Rmult (Re z) (Re z)) (Rmult (Im z) (Im z))).

Definition carg (z : C) : R :=
  if Rle_dec R0 (Im z) then acos (Rdiv (Re z) (cabs z)) else Ropp (acos (Rdiv (Re z) (cabs z))).

Definition clog (z : C) : C := Complex (ln (cabs z)) (carg z).

Lemma cexpD x y : cexp (x + y) = cexp x * cexp y.
Proof.
case: x => a b; case: y => c d; rewrite /cexp /= -[a + c]/(Rplus a c) -[b + d]/(Rplus b d).
rewrite exp_plus cos_plus sin_plus.
apply/eqP; rewrite eq_complex /=; apply/andP; split; apply/eqP.
  transitivity (Rminus (Rmult (Rmult (exp a) (cos b)) (Rmult (exp c) (cos d)))
                       (Rmult (Rmult (exp a) (sin b)) (Rmult (exp c) (sin d)))); [rring | reflexivity].
transitivity (Rplus (Rmult (Rmult (exp a) (cos b)) (Rmult (exp c) (sin d)))
                    (Rmult (Rmult (exp a) (sin b)) (Rmult (exp c) (cos d)))); [rring | reflexivity].
Qed.

Lemma cexpJ x : cexp x^* = (cexp x)^*.
Proof.
case: x => a b; rewrite /cexp /= -[- b]/(Ropp b) cos_neg sin_neg.
by congr Complex; transitivity (Ropp (Rmult (exp a) (sin b))); [rring | reflexivity].
Qed.

Lemma cabs_pos z : z != 0 -> Rlt R0 (cabs z).
Proof.
case: z => a b nz; apply: sqrt_lt_R0 => /=.
have : a <> R0 \/ b <> R0.
  case: (Req_EM_T a R0) => [a0|]; last by left.
  by right=> b0; case/eqP: nz; rewrite a0 b0.
by case=> /Rsqr_pos_lt; rewrite /Rsqr; have := Rle_0_sqr a; have := Rle_0_sqr b; rewrite /Rsqr; lra.
Qed.

Lemma cabs_sq z : Rmult (cabs z) (cabs z) = Rplus (Rmult (Re z) (Re z)) (Rmult (Im z) (Im z)).
Proof.
apply: sqrt_sqrt.
have := Rle_0_sqr (Re z); have := Rle_0_sqr (Im z); rewrite /Rsqr; lra.
Qed.

Lemma ratio z : z != 0 -> Rle (Ropp R1) (Rdiv (Re z) (cabs z)) /\ Rle (Rdiv (Re z) (cabs z)) R1.
Proof.
move=> nz; have r0 := cabs_pos nz; have r2 := cabs_sq z.
have [h1 h2] : Rle (Ropp (cabs z)) (Re z) /\ Rle (Re z) (cabs z).
  by split; have := Rle_0_sqr (Im z); rewrite /Rsqr => h; nra.
split; apply: (Rmult_le_reg_r (cabs z)) => //; rewrite /Rdiv Rmult_assoc Rinv_l; lra.
Qed.

Lemma cexp_clog z : z != 0 -> cexp (clog z) = z.
Proof.
move=> nz; have r0 := cabs_pos nz; have r2 := cabs_sq z; have [h1 h2] := ratio nz.
have rn : cabs z <> R0 by lra.
rewrite /cexp /clog /= exp_ln //.
have Ec : Rmult (cabs z) (cos (acos (Rdiv (Re z) (cabs z)))) = Re z.
  by rewrite cos_acos //; rfield.
have Es : Rmult (cabs z) (sin (acos (Rdiv (Re z) (cabs z)))) = Rabs (Im z).
  rewrite sin_acos // -{1}(sqrt_square (cabs z)); last lra.
  have p1 : Rle R0 (Rmult (cabs z) (cabs z)) by nra.
  have p2 : Rle R0 (Rminus R1 (Rsqr (Rdiv (Re z) (cabs z)))) by rewrite /Rsqr; nra.
  rewrite -sqrt_mult //.
  rewrite -sqrt_Rsqr_abs; congr sqrt; rewrite /Rsqr.
  have -> : Rmult (Im z) (Im z) = Rminus (Rmult (cabs z) (cabs z)) (Rmult (Re z) (Re z)) by lra.
  by rfield.
rewrite /carg; case: z nz r0 r2 h1 h2 rn Ec Es => a b nz r0 r2 h1 h2 rn; rewrite /= => Ec Es.
case: Rle_dec => hb; congr Complex => //.
- by rewrite Es Rabs_pos_eq.
- by rewrite cos_neg.
- by rewrite sin_neg -Ropp_mult_distr_r Es Rabs_left; [rring | lra].
Qed.

Lemma clogJ z : z != 0 -> ~~ negreal z -> clog z^* = (clog z)^*.
Proof.
case: z => a b; rewrite /negreal /= => nz ng.
have E : cabs (Complex a b)^* = cabs (Complex a b).
  by rewrite /cabs /=; congr sqrt; congr Rplus; rewrite -[- b]/(Ropp b); rring.
rewrite /clog /= E; congr Complex; rewrite /carg E /=; set t := acos _.
change (@eq R (if Rle_dec R0 (Ropp b) then t else Ropp t) (Ropp (if Rle_dec R0 b then t else Ropp t))).
case: Rle_dec => h1; case: Rle_dec => h2; rewrite ?Ropp_involutive //; last lra.
have b0 : b = R0 by lra.
suff -> : t = R0 by rewrite Ropp_0.
have a0 : Rle R0 a.
  by case: (Rle_dec R0 a) => // h; case/negP: ng; rewrite b0 eqxx andbT; apply/RltbP; exact: Rnot_le_lt.
rewrite /t /cabs /= b0 Rmult_0_l Rplus_0_r sqrt_square //.
case: (Req_EM_T a R0) => [z|na]; last by rewrite /Rdiv Rinv_r // acos_1.
by case/eqP: nz; rewrite z b0.
Qed.

Lemma exp_log_reals : exp_log cexp clog.
Proof. by split; [exact: cexpD | exact: cexpJ | exact: cexp_clog | exact: clogJ]. Qed.

(** ** Exponential of a matrix with a basis of eigenvectors, by its definition there *)
Section Expm.
Variables (F : rcfType) (f : F[i] -> F[i]).
Hypothesis fJ : forall x, f x^* = (f x)^*.
Local Notation toC := (map_mx (real_complex F)).
Local Notation cj := (map_mx (@conjc F)).

Lemma diag_fun m (W W' : 'M[F[i]]_m) (l l' : 'rV[F[i]]_m) : W \in unitmx -> W' \in unitmx ->
  W *m diag_mx l *m invmx W = W' *m diag_mx l' *m invmx W' ->
  W *m diag_mx (map_mx f l) *m invmx W = W' *m diag_mx (map_mx f l') *m invmx W'.
Proof.
move=> u u' E; pose S := invmx W' *m W.
have ES : diag_mx l' *m S = S *m diag_mx l.
  have := congr1 (fun X => invmx W' *m X *m W) E; rewrite !mulmxA mulmxKV // mulVmx // mul1mx.
  by rewrite -mulmxA /S => <-; rewrite !mulmxA.
have ESf : diag_mx (map_mx f l') *m S = S *m diag_mx (map_mx f l).
  apply/matrixP => i j; have /matrixP/(_ i j) := ES.
  rewrite !mul_diag_mx !mul_mx_diag 4![(\matrix_(_, _) _) _ _]mxE [map_mx f l' _ _]mxE [map_mx f l _ _]mxE.
  case: (eqVneq (S i j) 0) => [->|nz h]; first by rewrite !mulr0 !mul0r.
  by rewrite mulrC; congr (_ * f _); apply: (mulfI nz); rewrite -h mulrC.
have WS : W' *m S = W by rewrite /S mulKVmx.
apply: (canLR (mulmxK u)); rewrite -{1}WS -mulmxA -ESf /S !mulmxA; congr (_ *m _).
Qed.

Lemma diag_real m (A : 'M[F]_m) (W : 'M[F[i]]_m) (l : 'rV[F[i]]_m) : W \in unitmx ->
  toC A = W *m diag_mx l *m invmx W ->
  let E := W *m diag_mx (map_mx f l) *m invmx W in toC (map_mx (@complex.Re F) E) = E.
Proof.
move=> u EA E; apply: real_mx; rewrite /E !conj_mxM map_invmx map_diag_mx.
have uc : cj W \in unitmx by rewrite map_unitmx.
have -> : cj (map_mx f l) = map_mx f (cj l) by apply/matrixP => i j; rewrite !mxE fJ.
apply: diag_fun => //; rewrite -EA -[RHS]conj_toC EA !conj_mxM map_invmx map_diag_mx //.
Qed.

Definition diags m (A : 'M[F]_m) (Wl : 'M[F[i]]_m * 'rV[F[i]]_m) : Prop :=
  Wl.1 \in unitmx /\ toC A = Wl.1 *m diag_mx Wl.2 *m invmx Wl.1.

Definition mexp m (A : 'M[F]_m) : 'M[F]_m :=
  match excluded_middle_informative (exists Wl, diags A Wl) with
  | left h => let Wl := proj1_sig (constructive_indefinite_description _ h) in
              map_mx (@complex.Re F) (Wl.1 *m diag_mx (map_mx f Wl.2) *m invmx Wl.1)
  | right _ => 0
  end.

Lemma mexpP : is_expm f mexp.
Proof.
move=> m A W l u EA; rewrite /mexp; case: excluded_middle_informative => [h|[]]; last by exists (W, l).
case: constructive_indefinite_description => -[W' l'] [/= u' EA'].
rewrite (diag_real u' EA'); apply: diag_fun => //; by rewrite -EA.
Qed.
End Expm.
