(** * Two small decision procedures: [abel] for identities in an abelian group,
      and Coq's [ring]/[field] over a mathcomp field ([mcring], [mcfield]). *)
From mathcomp Require Import all_ssreflect all_algebra.
From Coq Require Import Ring_theory Field_theory.
From Coq Require Export Ring Field.
Set Implicit Arguments.
Unset Strict Implicit.
Unset Printing Implicit Defensive.
Import GRing.Theory.

Section Abel.
Variable V : zmodType.
Local Open Scope ring_scope.

Inductive zexp := ZV of nat | Z0 | ZA of zexp & zexp | ZN of zexp | ZM of zexp & nat.

Fixpoint zden (env : seq V) (e : zexp) : V :=
  match e with
  | ZV n => nth 0 env n
  | Z0 => 0
  | ZA a b => zden env a + zden env b
  | ZN a => - zden env a
  | ZM a n => zden env a *+ n
  end.

Fixpoint zadd (c c' : seq int) : seq int :=
  match c, c' with
  | [::], _ => c'
  | _, [::] => c
  | a :: c, a' :: c' => (a + a') :: zadd c c'
  end.

Fixpoint znf (e : zexp) : seq int :=
  match e with
  | ZV n => nseq n 0 ++ [:: 1]
  | Z0 => [::]
  | ZA a b => zadd (znf a) (znf b)
  | ZN a => [seq - x | x <- znf a]
  | ZM a n => [seq x *+ n | x <- znf a]
  end.

Fixpoint zev (env : seq V) (c : seq int) : V :=
  match env, c with
  | v :: env, a :: c => v *~ a + zev env c
  | _, _ => 0
  end.

Lemma zevN env c : zev env [seq - x | x <- c] = - zev env c.
Proof.
elim: env c => [|v env IH] [|a c] //=; rewrite ?oppr0 //.
by rewrite IH mulrNz opprD.
Qed.

Lemma zevM env c n : zev env [seq x *+ n | x <- c] = zev env c *+ n.
Proof.
elim: env c => [|v env IH] [|a c] //=; rewrite ?mul0rn //.
rewrite IH mulrnDl; congr (_ + _).
by elim: n {IH} => [|n IHn]; rewrite ?mulr0n ?mulr0z // !mulrS mulrzDl IHn.
Qed.

Lemma zevA env c c' : zev env (zadd c c') = zev env c + zev env c'.
Proof.
elim: env c c' => [|v env IH] [|a c] [|a' c'] //=; rewrite ?addr0 ?add0r //.
by rewrite IH mulrzDl addrACA.
Qed.

Lemma zevV env n : zev env (nseq n 0 ++ [:: 1]) = nth 0 env n.
Proof.
elim: n env => [|n IH] [|v env] //=; first by rewrite mulr1z; case: env => *; rewrite addr0.
by rewrite mulr0z add0r IH.
Qed.

Lemma znf_ok env e : zden env e = zev env (znf e).
Proof.
elim: e => [n||a IHa b IHb|a IHa|a IHa n] /=.
- by rewrite zevV.
- by case: env.
- by rewrite zevA IHa IHb.
- by rewrite zevN IHa.
- by rewrite zevM IHa.
Qed.

Lemma zev0 env c : all (eq_op (0 : int)) c -> zev env c = 0.
Proof.
elim: env c => [|v env IH] [|a c] //= /andP[/eqP <- /IH ->].
by rewrite mulr0z addr0.
Qed.

Lemma abel_ok env e1 e2 :
  all (eq_op (0 : int)) (znf (ZA e1 (ZN e2))) -> zden env e1 = zden env e2.
Proof.
move=> /(zev0 env); rewrite -znf_ok /= => /eqP.
by rewrite subr_eq0 => /eqP.
Qed.

End Abel.

Ltac abel_same x y :=
  match goal with
  | _ => let _ := match goal with _ => first [constr_eq x y | unify x y] end in constr:(true)
  | _ => constr:(false)
  end.

Ltac abel_mem x l :=
  lazymatch l with
  | cons ?y ?l' =>
      lazymatch abel_same x y with true => constr:(true) | false => abel_mem x l' end
  | _ => constr:(false)
  end.

Ltac abel_idx x l :=
  lazymatch l with
  | cons ?y ?l' =>
      lazymatch abel_same x y with
      | true => constr:(O)
      | false => let n := abel_idx x l' in constr:(S n)
      end
  end.

Ltac abel_atoms V t l :=
  lazymatch t with
  | @GRing.add _ ?a ?b => let l1 := abel_atoms V a l in abel_atoms V b l1
  | @GRing.opp _ ?a => abel_atoms V a l
  | @GRing.natmul _ ?a ?n => abel_atoms V a l
  | @GRing.zero _ => l
  | _ => match abel_mem t l with true => l | false => constr:(@cons V t l) end
  end.

Ltac abel_reify t l :=
  lazymatch t with
  | @GRing.add _ ?a ?b => let x := abel_reify a l in let y := abel_reify b l in constr:(ZA x y)
  | @GRing.opp _ ?a => let x := abel_reify a l in constr:(ZN x)
  | @GRing.natmul _ ?a ?n => let x := abel_reify a l in constr:(ZM x n)
  | @GRing.zero _ => constr:(Z0)
  | _ => let n := abel_idx t l in constr:(ZV n)
  end.

(** [abelV V]: goal [x = y] in the [zmodType] [V]. *)
Ltac abelV V :=
  match goal with
  | |- @eq _ ?x ?y =>
      let l := abel_atoms (GRing.Zmodule.sort V) x constr:(@nil (GRing.Zmodule.sort V)) in
      let l := abel_atoms (GRing.Zmodule.sort V) y l in
      let e1 := abel_reify x l in
      let e2 := abel_reify y l in
      refine (@abel_ok V l e1 e2 _); vm_compute; reflexivity
  end.

(** [abel]: find the zmodType from an addition or opposite in the goal. *)
Ltac abel :=
  match goal with
  | |- context [@GRing.add ?V _ _] => abelV V
  | |- context [@GRing.opp ?V _] => abelV V
  end.

(** ** ring and field *)
Definition rzero (F : fieldType) : F := GRing.zero F.
Definition rone (F : fieldType) : F := GRing.one F.
Definition radd (F : fieldType) : F -> F -> F := @GRing.add F.
Definition rmul (F : fieldType) : F -> F -> F := @GRing.mul F.
Definition rsub (F : fieldType) (x y : F) : F := (x - y)%R.
Definition ropp (F : fieldType) : F -> F := @GRing.opp F.
Definition rinv (F : fieldType) : F -> F := @GRing.inv F.
Definition rdiv (F : fieldType) (x y : F) : F := (x * y^-1)%R.

Arguments rzero : simpl never.
Arguments rone : simpl never.
Arguments radd : simpl never.
Arguments rmul : simpl never.
Arguments rsub : simpl never.
Arguments ropp : simpl never.
Arguments rinv : simpl never.
Arguments rdiv : simpl never.

Lemma mc_field_theory (F : fieldType) :
  field_theory (@rzero F) (@rone F) (@radd F) (@rmul F) (@rsub F) (@ropp F)
               (@rdiv F) (@rinv F) eq.
Proof.
split=> //.
- split=> //; rewrite /rzero /rone /radd /rmul /rsub /ropp.
  + exact: add0r.
  + exact: addrC.
  + exact: addrA.
  + exact: mul1r.
  + exact: mulrC.
  + exact: mulrA.
  + exact: mulrDl.
  + exact: addrN.
- by apply/eqP; rewrite /rzero /rone oner_eq0.
- by move=> p /eqP; exact: mulVf.
Qed.

(** [fold_ring F] rewrites the ring operations of the goal, whatever structure
    they were inferred from, as [radd F] etc.  Numerals [n%:R] are unfolded for
    [n <= 9]. *)
Ltac fold_ring F :=
  rewrite ?exprS ?expr0;
  repeat match goal with
  | |- context [@intmul ?V ?x (Posz ?n)] => change (@intmul V x (Posz n)) with (@GRing.natmul V x n)
  end;
  repeat match goal with
  | |- context [@GRing.natmul ?V ?x (S (S ?n))] => rewrite (mulrS x (S n))
  | |- context [@GRing.natmul ?V ?x (S O)] => rewrite (mulr1n x)
  | |- context [@GRing.natmul ?V ?x O] => rewrite (mulr0n x)
  end;
  repeat match goal with
  | |- context [@GRing.zero ?V] => change (@GRing.zero V) with (@rzero F)
  | |- context [@GRing.one ?V] => change (@GRing.one V) with (@rone F)
  | |- context [@GRing.add ?V ?x (@GRing.opp _ ?y)] =>
      change (@GRing.add V x (@GRing.opp _ y)) with (@rsub F x y)
  | |- context [@GRing.add ?V ?x ?y] => change (@GRing.add V x y) with (@radd F x y)
  | |- context [@GRing.opp ?V ?x] => change (@GRing.opp V x) with (@ropp F x)
  | |- context [@GRing.mul ?V ?x ?y] => change (@GRing.mul V x y) with (@rmul F x y)
  | |- context [@GRing.inv ?V ?x] => change (@GRing.inv V x) with (@rinv F x)
  end;
  match goal with |- @eq _ ?x ?y => change (@eq (GRing.Field.sort F) x y) end.

(** Side conditions of [field]: nonzero numerals in a real field. *)
Lemma nz_num (R : realFieldType) n : (n.+1%:R != 0 :> R)%R.
Proof. by rewrite Num.Theory.pnatr_eq0. Qed.

Ltac nz_solve R :=
  repeat split; apply/eqP;
  first [ assumption | exact: (nz_num R 1) | exact: (nz_num R 2) | exact: (nz_num R 3)
        | exact: (nz_num R 5) | exact: (nz_num R 7) | exact: (oner_neq0 R) ].

(** Usage, in a section with [Variable R : realFieldType]:
    [Add Field RF : (mc_field_theory R).] then
    [fold_ring (Num.RealField.fieldType R); ring.] *)
