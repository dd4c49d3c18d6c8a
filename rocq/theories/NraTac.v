(* Decision procedures for ordered fields of mathcomp: [flra] (linear) and
   [fnra] (non-linear) arithmetic.  The witnesses are searched by Coq's own
   micromega; this file proves that its checker (Coq.micromega.QMicromega) is
   sound for every realFieldType and reifies goals with Ltac.
   Proof automation only: nothing here models code of /repo. *)
From Coq Require Import ZArith NArith Nnat QArith List Lia.
From Coq.micromega Require Import OrderedRing EnvRing RingMicromega QMicromega Tauto Lqa Env Refl.
From mathcomp Require Import all_ssreflect all_algebra.
Set Implicit Arguments.
Unset Strict Implicit.
Unset Printing Implicit Defensive.
Import Order.TTheory GRing.Theory Num.Theory.

Section Sound.
Variable F : realFieldType.
Local Open Scope ring_scope.

Lemma f_sor : SOR (0 : F) 1 +%R *%R (fun x y => x - y) -%R eq (fun x y => x <= y) (fun x y => x < y).
Proof.
constructor=> //; try by move=> *; subst.
- exact: RelationClasses.eq_equivalence.
- constructor; move=> *;
    rewrite ?add0r ?mul1r ?addrN ?mulrDl ?addrA ?mulrA //; by [rewrite addrC | rewrite mulrC].
- by move=> n m h1 h2; apply/eqP; rewrite eq_le h1 h2.
- by move=> n m p; exact: le_trans.
- move=> n m; rewrite lt_neqAle; split=> [/andP [/eqP ? ?]|[? /eqP ->]] //.
- move=> n m; case: (ltgtP n m)=> h; [left|right; right|right; left]=> //.
- by move=> n m p; rewrite ler_add2l.
- by move=> n m; exact: mulr_gt0.
- by move/eqP; rewrite eq_sym oner_eq0.
Qed.

Definition p2F (p : positive) : F := (Pos.to_nat p)%:R.
Definition z2F (z : Z) : F :=
  match z with Z0 => 0 | Zpos p => p2F p | Zneg p => - p2F p end.
Definition q2F (q : Q) : F := z2F (Qnum q) / p2F (Qden q).

Lemma p2F_gt0 p : 0 < p2F p.
Proof. by rewrite /p2F ltr0n; apply/ssrnat.ltP; exact: Pos2Nat.is_pos. Qed.
Lemma p2F_neq0 p : p2F p != 0. Proof. by rewrite gt_eqF // p2F_gt0. Qed.
Lemma p2F_mul p q : p2F (Pos.mul p q) = p2F p * p2F q.
Proof. by rewrite /p2F Pos2Nat.inj_mul natrM. Qed.
Lemma p2F_add p q : p2F (Pos.add p q) = p2F p + p2F q.
Proof. by rewrite /p2F Pos2Nat.inj_add natrD. Qed.
Lemma z2F_opp z : z2F (Z.opp z) = - z2F z.
Proof. by case: z => //= *; rewrite ?oppr0 ?opprK. Qed.
Lemma z2F_pos_sub p q : z2F (Z.pos_sub p q) = p2F p - p2F q.
Proof.
have := Z.pos_sub_spec p q; case: Pos.compare_spec => [->|h|h] ->.
- by rewrite /= subrr.
- rewrite /= -[in RHS](Pos.sub_add q p h) p2F_add opprD addrCA addrN addr0 //.
- by rewrite /= -[in RHS](Pos.sub_add p q h) p2F_add addrK.
Qed.
Lemma z2F_add x y : z2F (Z.add x y) = z2F x + z2F y.
Proof.
case: x y => [|x|x] [|y|y] /=; rewrite ?add0r ?addr0 ?z2F_pos_sub ?p2F_add ?opprD //.
by rewrite addrC.
Qed.
Lemma z2F_mul x y : z2F (Z.mul x y) = z2F x * z2F y.
Proof. by case: x y => [|x|x] [|y|y] /=; rewrite ?mul0r ?mulr0 ?p2F_mul ?mulrN ?mulNr ?opprK. Qed.
Lemma z2F_ge0 x : Z.le 0 x -> 0 <= z2F x.
Proof. by case: x => //= p _; exact: ltW (p2F_gt0 p). Qed.
Lemma z2F_le x y : Z.le x y -> z2F x <= z2F y.
Proof. by move=> h; rewrite -subr_ge0 -z2F_opp -z2F_add; apply: z2F_ge0; lia. Qed.
Lemma z2F_eq0 x : z2F x = 0 -> x = Z0.
Proof.
case: x => //= p /eqP; last rewrite oppr_eq0.
- by rewrite (negPf (p2F_neq0 p)).
- by rewrite (negPf (p2F_neq0 p)).
Qed.
Lemma z2F_inj x y : z2F x = z2F y -> x = y.
Proof.
move=> h; have: z2F (Z.sub x y) = 0 by rewrite /Z.sub z2F_add z2F_opp h subrr.
by move/z2F_eq0; lia.
Qed.

Lemma q2F_le x y : Qle_bool x y = true -> q2F x <= q2F y.
Proof.
case: x y => [a b] [c d]; rewrite /Qle_bool /q2F /= => /Z.leb_le /z2F_le.
by rewrite !z2F_mul ler_pdivl_mulr ?p2F_gt0 // mulrAC ler_pdivr_mulr ?p2F_gt0.
Qed.
Lemma q2F_eqb x y : Qeq_bool x y = true <-> q2F x = q2F y.
Proof.
case: x y => [a b] [c d]; rewrite /Qeq_bool /q2F /= -Zeq_is_eq_bool.
split=> [h|/eqP].
- by apply/eqP; rewrite eqr_div ?p2F_neq0 // -![p2F _]/(z2F (Zpos _)) -!z2F_mul h.
- by rewrite eqr_div ?p2F_neq0 // -![p2F _]/(z2F (Zpos _)) -!z2F_mul => /eqP /z2F_inj.
Qed.

Lemma f_addon : SORaddon (0 : F) 1 +%R *%R (fun x y => x - y) -%R eq (fun x y => x <= y)
  (Qmake Z0 xH) (Qmake (Zpos xH) xH) Qplus Qmult Qminus Qopp Qeq_bool Qle_bool q2F N.to_nat (fun x n => x ^+ n).
Proof.
constructor.
- have addE x y : q2F (Qplus x y) = q2F x + q2F y.
    case: x y => [a b] [c d]; rewrite /q2F /= z2F_add !z2F_mul p2F_mul addf_div ?p2F_neq0 //.
  have oppE x : q2F (Qopp x) = - q2F x by case: x => a b; rewrite /q2F /= z2F_opp mulNr.
  constructor=> //.
  + by rewrite /q2F /= mul0r.
  + by rewrite /q2F /= /p2F /= divr1.
  + by move=> x y; rewrite /Qminus addE oppE.
  + by case=> [a b] [c d]; rewrite /q2F /= z2F_mul p2F_mul mulf_div.
  + by move=> x y /q2F_eqb.
- constructor=> x [|n] //=; elim: n => [n IH|n IH|] /=; rewrite ?expr1 //.
  + by rewrite -IH Pos2Nat.inj_xI multE exprS mul2n -addnn exprD.
  + by rewrite -IH Pos2Nat.inj_xO multE mul2n -addnn exprD.
- by move=> x y h /q2F_eqb; rewrite h.
- exact: q2F_le.
Qed.

(* expressions as they occur in goals *)
Inductive aexp :=
| AX of nat | A0 | A1 | ANat of nat
| AAdd of aexp & aexp | ASub of aexp & aexp | AMul of aexp & aexp
| AOpp of aexp | APow of aexp & nat | AInvNat of nat.
Fixpoint aeval (l : seq F) (e : aexp) : F :=
  match e with
  | AX n => nth 0 l n
  | A0 => 0 | A1 => 1
  | ANat n => n%:R
  | AAdd a b => aeval l a + aeval l b
  | ASub a b => aeval l a - aeval l b
  | AMul a b => aeval l a * aeval l b
  | AOpp a => - aeval l a
  | APow a n => aeval l a ^+ n
  | AInvNat n => n.+1%:R^-1
  end.
Fixpoint toPE (e : aexp) : PExpr Q :=
  match e with
  | AX n => PEX (Pos.of_succ_nat n)
  | A0 => PEc (Qmake Z0 xH)
  | A1 => PEc (Qmake (Zpos xH) xH)
  | ANat n => PEc (Qmake (Z.of_nat n) xH)
  | AAdd a b => PEadd (toPE a) (toPE b)
  | ASub a b => PEsub (toPE a) (toPE b)
  | AMul a b => PEmul (toPE a) (toPE b)
  | AOpp a => PEopp (toPE a)
  | APow a n => PEpow (toPE a) (N.of_nat n)
  | AInvNat n => PEc (Qmake (Zpos xH) (Pos.of_succ_nat n))
  end.
Definition env_of (l : seq F) : PolEnv F := fun p => nth 0 l (Pos.to_nat p).-1.
Definition feval_pexpr :=
  eval_pexpr (+%R : F -> F -> F) *%R (fun x y => x - y) -%R q2F N.to_nat (fun x n => x ^+ n).
Definition feval_formula' (e : PolEnv F) (f : Formula Q) : Prop :=
  eval_formula (+%R : F -> F -> F) *%R (fun x y => x - y) -%R eq (fun x y => x <= y) (fun x y => x < y)
    q2F N.to_nat (fun x n => x ^+ n) e f.

Lemma toPE_ok l e : feval_pexpr (env_of l) (toPE e) = aeval l e.
Proof.
elim: e => //=.
- by move=> n; rewrite /feval_pexpr /= /Env.nth /env_of SuccNat2Pos.id_succ.
- by rewrite /q2F /= mul0r.
- by rewrite /q2F /= /p2F divr1.
- case=> [|n]; rewrite /q2F /p2F /= ?mul0r // divr1 /p2F; by rewrite SuccNat2Pos.id_succ.
- by move=> a <- b <-.
- by move=> a <- b <-.
- by move=> a <- b <-.
- by move=> a <-.
- by move=> a <- n; rewrite Nat2N.id.
- by move=> n; rewrite /q2F /= /p2F SuccNat2Pos.id_succ mul1r.
Qed.

(* relations *)
Inductive aform := ALe of aexp & aexp | ALt of aexp & aexp | AEq of aexp & aexp.
Definition afeval (l : seq F) (f : aform) : Prop :=
  match f with
  | ALe a b => aeval l a <= aeval l b
  | ALt a b => aeval l a < aeval l b
  | AEq a b => aeval l a = aeval l b
  end.
Definition toF (f : aform) : Formula Q :=
  match f with
  | ALe a b => Build_Formula (toPE a) OpLe (toPE b)
  | ALt a b => Build_Formula (toPE a) OpLt (toPE b)
  | AEq a b => Build_Formula (toPE a) OpEq (toPE b)
  end.
Lemma toF_ok l f : feval_formula' (env_of l) (toF f) <-> afeval l f.
Proof. by case: f => a b; rewrite /feval_formula' /= -!/(feval_pexpr _ _) !toPE_ok. Qed.

Definition feval_bop (o : Op2) (x y : F) : bool :=
  match o with
  | OpEq => x == y | OpNEq => x != y | OpLe => x <= y | OpGe => y <= x | OpLt => x < y | OpGt => y < x
  end.
Definition feval_formula (e : PolEnv F) (k : Tauto.kind) (f : Formula Q) : Tauto.rtyp k :=
  match k with
  | Tauto.isProp => feval_formula' e f
  | Tauto.isBool => feval_bop (Fop f) (feval_pexpr e (Flhs f)) (feval_pexpr e (Frhs f))
  end.
Lemma feval_formula_compat e k f : Tauto.hold k (feval_formula e k f) <-> feval_formula' e f.
Proof.
case: k => //=; case: f => a [] b; rewrite /feval_formula' /= -!/(feval_pexpr _ _) //.
- by split=> /eqP.
- by split=> /eqP.
Qed.
Definition feval_nformula : PolEnv F -> NFormula Q -> Prop :=
  eval_nformula (0 : F) +%R *%R eq (fun x y => x <= y) (fun x y => x < y) q2F.

Lemma checker_sound f w : QTautoChecker f w = true -> forall e, eval_bf (feval_formula e) f.
Proof.
rewrite /QTautoChecker.
apply tauto_checker_sound with (eval := feval_formula) (eval' := feval_nformula).
- by move=> e d; exact: (eval_nformula_dec f_sor q2F e d).
- intros; destruct t; revert H0; by apply (check_inconsistent_sound f_sor f_addon).
- rewrite /qdeduce; intros; revert H; by apply (nformula_plus_nformula_correct f_sor f_addon).
- intros; apply feval_formula_compat; by eapply (cnf_normalise_correct f_sor f_addon); eauto.
- intros; rewrite Tauto.hold_eNOT => /feval_formula_compat; by eapply (cnf_negate_correct f_sor f_addon); eauto.
- intros t w0; rewrite /eval_tt; intros.
  rewrite -> make_impl_map with (eval := feval_nformula env); last by tauto.
  by apply (checker_nf_sound f_sor f_addon _ w0).
Qed.

Definition mk_bf (hs : seq aform) (g : aform) : BFormula (Formula Q) Tauto.isProp :=
  foldr (fun h f => IMPL (A Tauto.isProp (toF h) tt) None f) (A Tauto.isProp (toF g) tt) hs.
Definition impl (l : seq F) (hs : seq aform) (g : aform) : Prop :=
  foldr (fun h (P : Prop) => afeval l h -> P) (afeval l g) hs.
Lemma nra_sound l hs g w : QTautoChecker (mk_bf hs g) w = true -> impl l hs g.
Proof.
move/checker_sound => /(_ (env_of l)); elim: hs => [|h hs IH] /=.
- by rewrite /eval_bf /= => /toF_ok.
- by move=> H /toF_ok h1; apply: IH; exact: H.
Qed.
End Sound.

Ltac r_mem x l :=
  lazymatch l with
  | nil => constr:(false)
  | cons ?y ?r =>
    match constr:(Set) with
    | _ => let _ := match constr:(Set) with _ => constr_eq x y end in constr:(true)
    | _ => r_mem x r
    end
  end.
Ltac r_index x l :=
  lazymatch l with
  | cons ?y ?r =>
    match constr:(Set) with
    | _ => let _ := match constr:(Set) with _ => constr_eq x y end in constr:(O)
    | _ => let n := r_index x r in constr:(S n)
    end
  end.
Ltac r_num n := lazymatch n with O => idtac | S ?m => r_num m end.
Ltac r_atoms t l :=
  lazymatch t with
  | @GRing.add _ ?a ?b => let l := r_atoms a l in r_atoms b l
  | @GRing.mul _ ?a ?b => let l := r_atoms a l in r_atoms b l
  | @GRing.opp _ ?a => r_atoms a l
  | @GRing.exp _ ?a ?n => r_atoms a l
  | @GRing.zero _ => l
  | @GRing.one _ => l
  | @GRing.natmul _ (@GRing.one _) ?n => l
  | @GRing.inv _ (@GRing.natmul _ (@GRing.one _) (S ?n)) => l
  | _ => let m := r_mem t l in lazymatch m with true => l | false => constr:(t :: l) end
  end.
Ltac r_exp l t :=
  lazymatch t with
  | @GRing.add _ ?a ?b => let a := r_exp l a in let b := r_exp l b in constr:(AAdd a b)
  | @GRing.mul _ ?a ?b => let a := r_exp l a in let b := r_exp l b in constr:(AMul a b)
  | @GRing.opp _ ?a => let a := r_exp l a in constr:(AOpp a)
  | @GRing.exp _ ?a ?n => let a := r_exp l a in constr:(APow a n)
  | @GRing.zero _ => constr:(A0)
  | @GRing.one _ => constr:(A1)
  | @GRing.natmul _ (@GRing.one _) ?n => constr:(ANat n)
  | @GRing.inv _ (@GRing.natmul _ (@GRing.one _) (S ?n)) => constr:(AInvNat n)
  | _ => let n := r_index t l in constr:(AX n)
  end.
Ltac r_goal_atoms g l :=
  lazymatch g with
  | is_true (@Order.le _ _ ?x ?y) => let l := r_atoms x l in r_atoms y l
  | is_true (@Order.lt _ _ ?x ?y) => let l := r_atoms x l in r_atoms y l
  | @eq _ ?x ?y => let l := r_atoms x l in r_atoms y l
  | ?P -> ?Q => let l := r_goal_atoms P l in r_goal_atoms Q l
  end.
Ltac r_form l g :=
  lazymatch g with
  | is_true (@Order.le _ _ ?x ?y) => let x := r_exp l x in let y := r_exp l y in constr:(ALe x y)
  | is_true (@Order.lt _ _ ?x ?y) => let x := r_exp l x in let y := r_exp l y in constr:(ALt x y)
  | @eq _ ?x ?y => let x := r_exp l x in let y := r_exp l y in constr:(AEq x y)
  end.
Ltac r_hyps l g :=
  lazymatch g with
  | is_true _ => constr:(@nil aform)
  | @eq _ _ _ => constr:(@nil aform)
  | ?P -> ?Q => let h := r_form l P in let hs := r_hyps l Q in constr:(h :: hs)
  end.
Ltac r_concl l g :=
  lazymatch g with
  | is_true _ => r_form l g
  | @eq _ _ _ => r_form l g
  | ?P -> ?Q => r_concl l Q
  end.
(* bring the relations of the context into the goal *)
Ltac r_carrier t := let T := type of t in T.
Ltac r_generalize :=
  repeat match goal with
  | H : is_true (@Order.le _ _ ?x ?y) |- _ => generalize H; clear H
  | H : is_true (@Order.lt _ _ ?x ?y) |- _ => generalize H; clear H
  | H : @eq (GRing.Zmodule.sort _) _ _ |- _ => generalize H; clear H
  | H : @eq (Num.RealField.sort _) _ _ |- _ => generalize H; clear H
  | H : @eq (Num.RealClosedField.sort _) _ _ |- _ => generalize H; clear H
  | H : @eq (GRing.Ring.sort _) _ _ |- _ => generalize H; clear H
  | H : @eq (Equality.sort (Num.RealField.eqType _)) _ _ |- _ => generalize H; clear H
  end.
Ltac r_prep :=
  repeat match goal with
  | H : is_true (_ && _) |- _ => let H2 := fresh H in case/andP: H => H H2
  | H : _ /\ _ |- _ => let H2 := fresh H in case: H => H H2
  | H : is_true (~~ (@Order.le _ _ _ _)) |- _ => rewrite -ltNge in H
  | H : is_true (~~ (@Order.lt _ _ _ _)) |- _ => rewrite -leNgt in H
  | H : (@Order.le _ _ _ _) = false |- _ => move/negbT: H => H; rewrite -ltNge in H
  | H : (@Order.lt _ _ _ _) = false |- _ => move/negbT: H => H; rewrite -leNgt in H
  | H : (@Order.le _ _ _ _) = true |- _ => change (is_true (Order.le _ _)) in H
  | H : is_true (@eq_op _ _ _) |- _ => move/eqP: H => H
  end.
Ltac r_concl_prep F :=
  lazymatch goal with
  | |- is_true (@Order.le _ _ _ _) => idtac
  | |- is_true (@Order.lt _ _ _ _) => idtac
  | |- is_true (~~ (@Order.le _ _ _ _)) => rewrite -ltNge
  | |- is_true (~~ (@Order.lt _ _ _ _)) => rewrite -leNgt
  | |- is_true (@eq_op _ _ _) => apply/eqP
  | |- @eq bool _ _ => fail
  | |- @eq _ _ _ => idtac
  | _ => exfalso; suff: is_true ((0 : F) < 0)%R by rewrite ltxx
  end.
Ltac r_solve F tac :=
  intros; r_prep; r_concl_prep F; r_generalize;
  match goal with |- ?g =>
    let l := r_goal_atoms g (@nil F) in
    let hs := r_hyps l g in
    let c := r_concl l g in
    let ff := eval vm_compute in (mk_bf hs c) in
    let w := fresh "w" in
    tac w ff;
    exact (@nra_sound F l hs c w (erefl : QTautoChecker (mk_bf hs c) w = true))
  end.
Ltac flra_ F := r_solve F ltac:(fun w ff => wlra_Q w ff).
Ltac fnra_ F := r_solve F ltac:(fun w ff => wnra_Q w ff).

Section Test.
Variable F : realFieldType.
Local Open Scope ring_scope.
Goal forall x y : F, x <= y -> 0 < y - x + 1.
Proof. move=> x y h. flra_ F. Qed.
Goal forall x y : F, 0 <= x ^+ 2 + y * y / 2%:R.
Proof. move=> x y. fnra_ F. Qed.
Goal forall x y : F, 0 < x -> x * y <= 0 -> 2%:R * y <= 0.
Proof. move=> x y h1 h2. fnra_ F. Qed.
Goal forall x y z: F, 0 < x -> x * y = x * z -> y == z.
Proof. move=> x y z h1 h2. fnra_ F. Qed.
End Test.
Section Test.
Variable F : rcfType.
Local Open Scope ring_scope.
Goal forall x y z: F, 0 < x -> x * y = x * z -> y == z.
Proof. move=> x y z h1 h2. fnra_ F. Qed.
Goal forall x y z: F, 0 < x -> (x * y <= 0) = false -> 0 <= y.
Proof. move=> x y z h1 h2. fnra_ F. Qed.
End Test.
