(** * Free energy: numerical integration and witnesses. *)
From Coq Require Import Reals Lra Lia.
From Coquelicot Require Import Coquelicot.
From mathcomp Require Import all_ssreflect zify.
From Verif Require Import Base Colored ColoredProofs ColoredProofs3 ColoredProofs4 Basis Calculus BasisProofs BasisVector Pmf PmfProofs BasisWitness.
Set Implicit Arguments.
Unset Strict Implicit.
Unset Printing Implicit Defensive.
Local Open Scope R_scope.

(** ** One dimension *)
Lemma one_dim n A b c mass kT : antiderivative_of n 1 A b ->
  forall x, gradient_at 1 (fun y => phi n 1 A c mass kT y 0) x (fun i => - force_eval n b c x 0 * mass 0%N 0%N / kT).
Proof.
move=> HA x; have H := @phi_force n 1 A b c mass kT HA.
apply: (gradient_ext _ _ (H _ _ x 0%N isT)) => // [[]|k m _|m l] //.
  by rewrite modn1; case: m.
by case: m => //; case: l.
Qed.

(** ** Two dimensions, linear basis, force along 0 proportional to the coordinate 1 *)
Definition cross : matrix := fun k m => if (k == 1%N) && (m == 0%N) then 1 else 0.
Lemma pmf_2d_refuted : exists x, ~ gradient_at 2 (fun y => phi 2 2 (lin_antiderivative 2 1) cross identity 1 y 0) x
  (fun i => if i == 0%N then - force_eval 2 (lin_basis 2 (fun _ => 0)) cross x 0 * 1 / 1 else 0).
Proof.
exists (fun _ => 1) => G.
have HA : antiderivative_of 2 2 (lin_antiderivative 2 1) (lin_basis 2 (fun _ => 0)) by move=> k x lk; exact: lin_integral.
have G' := @phi_gradient 2 2 _ _ cross identity 1 HA (fun _ => 1) 0.
have := @gradient_unique 2 _ (fun _ => 1) _ _ 0 isT _ G G'.
have -> // : force_eval 2 (lin_basis 2 (fun _ => 0)) cross (fun _ => 1) 0 = 1.
  by rewrite /force_eval /dot_coeffs /= !lin_basisE // /cross /=; ring.
move=> H; have : - (1) * 1 / 1 = 0; last lra.
rewrite -[RHS](_ : matvec 2 (fun m => -1 * rsum 2 (fun k => (if 0%N == (k %% 2)%N then lin_basis 2 (fun _ => 0) (fun _ => 1) [:: k] else 0) * cross k m)) identity 0 / 1 = 0).
  apply: H => y z E; rewrite /phi; congr (_ / _); apply: rsum_ext => m _; congr (_ * _ * _).
  by apply: rsum_ext => k lk; rewrite !lin_antiderivativeE // E.
by rewrite /matvec /= /cross /identity /=; field.
Qed.
(** ** Centred linear basis *)
Lemma pmf_centered_refuted : exists mean x, ~ gradient_at 1 (fun y => phi 1 1 (lin_antiderivative 1 1) (fun _ _ => 1) identity 1 y 0) x
  (fun i => - force_eval 1 (lin_basis 1 (lin_mean true mean)) (fun _ _ => 1) x 0 * 1 / 1).
Proof.
exists (fun _ => 1), (fun _ => 0) => G.
have HA : antiderivative_of 1 1 (lin_antiderivative 1 1) (lin_basis 1 (fun _ => 0)) by move=> k x lk; exact: lin_integral.
have G' := @one_dim 1 _ _ (fun _ _ => 1) identity 1 HA (fun _ => 0).
have := @gradient_unique 1 _ (fun _ => 0) _ _ 0 isT _ G G'.
rewrite /force_eval /dot_coeffs /= !lin_basisE // /lin_mean /identity /= => H.
have : - (0 + (0 - 1) * 1) * 1 / 1 = - (0 + (0 - 0) * 1) * 1 / 1; last by lra.
apply: H => y z E; rewrite /phi; congr (_ / _); apply: rsum_ext => m _; congr (_ * _ * _).
by apply: rsum_ext => k lk; rewrite !lin_antiderivativeE // E.
Qed.

(** ** Numerical integration *)
Section NumInt.
Variables (N : nat) (x0 dx m0 m1 g kT : R).
Let x i := x0 + INR i * dx.
Let im i := m0 + m1 * x i.
Hypothesis N2 : (2 <= N)%N.
Hypothesis dx0 : dx <> 0.
Hypothesis kT0 : kT <> 0.
Hypothesis im0 : forall i, (i < N)%N -> im i <> 0.
Hypothesis kTm : kT = 1 \/ m1 = 0.
Lemma grid_step i j : x i - x j = (INR i - INR j) * dx.
Proof. by rewrite /x; ring. Qed.
Lemma np_gradient_affine i : (i < N)%N -> np_gradient (mkseq im N) i = m1 * dx.
Proof.
move=> li; rewrite /np_gradient size_mkseq; case: (i =P 0%N) => [i0|i0].
  by rewrite !nth_mkseq ?(ltnW N2) // /im /x /=; ring.
case: (i =P N.-1) => [e|ne].
  rewrite !nth_mkseq //; last lia.
  case: i i0 li e => // i _ li e; rewrite /im /x -[i.+1.-1]/i S_INR; ring.
rewrite !nth_mkseq //; try lia.
case: i i0 li ne => // i _ li e; rewrite /im /x -[i.+1.-1]/i !S_INR; field.
Qed.
Lemma pmf_num_int_exact b : exists2 P,
  pmf_num_int kT (mkseq (fun i => m1 + im i * g) N) (mkseq im N) (mkseq x N) b = Ok P &
  size P = N /\ forall i j, (i < N)%N -> (j < N)%N -> nth 0 P i - nth 0 P j = - g * (x i - x j).
Proof.
rewrite /pmf_num_int size_mkseq ltnNge N2 /= !nth_mkseq ?(ltnW N2) //.
have -> : x 1 - x 0 = dx by rewrite /x /=; ring.
case: (Req_EM_T dx 0) => [e|? /=]; first by case: (dx0 e).
case: (Req_EM_T kT 0) => [e|? /=]; first by case: (kT0 e).
rewrite [has _ (mkseq im N)]has_map; case: ifP => [/hasP[i]|_].
  by rewrite mem_iota add0n /= => li; case: (Req_EM_T (im i) 0) => // e; case: (im0 li e).
rewrite size_mkseq; set grad := mkseq _ N.
have Eg i : (i < N)%N -> nth 0 grad i = - g.
  move=> li; rewrite /grad !nth_mkseq // np_gradient_affine // /grad_pmf.
  have i0 := im0 li; case: kTm => ->; first by field.
  by field.
have Es : map (fun s => s * dx) (cumsum grad) = mkseq (fun i => - g * INR i.+1 * dx) N.
  rewrite /cumsum size_mkseq /mkseq -map_comp; apply/eq_in_map => i; rewrite mem_iota add0n => li.
  rewrite /comp; congr (_ * _); rewrite (@rsum_ext i.+1 _ (fun _ => - g)); last by move=> k lk; apply: Eg; lia.
  by elim: (i.+1) => [|k IH]; [rewrite /=; ring | rewrite S_INR /= IH; ring].
rewrite Es; case EP: (mkseq (fun i => - g * INR i.+1 * dx) N) => [|y ys].
  by move: (congr1 size EP); rewrite size_mkseq /=; lia.
eexists; first by [].
rewrite -EP size_map size_mkseq; split=> // i j li lj.
rewrite !(nth_map 0) ?size_mkseq // !nth_mkseq // grid_step.
by rewrite !S_INR; ring.
Qed.
End NumInt.
Lemma pmf_num_int_refuted : exists kT force inv_mass x P, pmf_num_int kT force inv_mass x false = Ok P /\
  kT <> 0 /\ force = [:: 1; 1] /\ inv_mass = [:: 1; 2] /\ x = [:: 0; 1] /\ nth 0 P 1 - nth 0 P 0 <> 0.
Proof.
have E : pmf_num_int 2 [:: 1; 1] [:: 1; 2] [:: 0; 1] false = Ok (map (fun s => s - 0 * foldl Rmin
  ((0 + grad_pmf 1 1 ((2 - 1) / (1 - 0)) 2) * (1 - 0)) [:: (0 + grad_pmf 1 1 ((2 - 1) / (1 - 0)) 2 + grad_pmf 1 2 ((2 - 1) / (1 - 0)) 2) * (1 - 0)])
  [:: (0 + grad_pmf 1 1 ((2 - 1) / (1 - 0)) 2) * (1 - 0); (0 + grad_pmf 1 1 ((2 - 1) / (1 - 0)) 2 + grad_pmf 1 2 ((2 - 1) / (1 - 0)) 2) * (1 - 0)]).
  rewrite /pmf_num_int /=; case: (Req_EM_T (1 - 0) 0) => [e|? /=]; first by exfalso; lra.
  case: (Req_EM_T 1 0) => [e|? /=]; first by exfalso; lra.
  by case: (Req_EM_T 2 0) => [e|? //=]; exfalso; lra.
do 4 eexists; exists (map (fun s => s - 0 * foldl Rmin
  ((0 + grad_pmf 1 1 ((2 - 1) / (1 - 0)) 2) * (1 - 0)) [:: (0 + grad_pmf 1 1 ((2 - 1) / (1 - 0)) 2 + grad_pmf 1 2 ((2 - 1) / (1 - 0)) 2) * (1 - 0)])
  [:: (0 + grad_pmf 1 1 ((2 - 1) / (1 - 0)) 2) * (1 - 0); (0 + grad_pmf 1 1 ((2 - 1) / (1 - 0)) 2 + grad_pmf 1 2 ((2 - 1) / (1 - 0)) 2) * (1 - 0)]).
split; first exact: E.
split; first lra.
by do 3 split=> //; rewrite /= /grad_pmf; lra.
Qed.
Lemma pmf_num_int_one kT f m x b : pmf_num_int kT [:: f] [:: m] [:: x] b = Err OutOfBounds.
Proof. by []. Qed.
