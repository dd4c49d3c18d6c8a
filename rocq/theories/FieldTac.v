(* The standard ring and field tactics on the fields of Mathematical
   Components. *)
From mathcomp Require Import all_ssreflect all_algebra.
From Coq Require Import Field.
Import GRing.Theory Num.Theory.
Set Implicit Arguments.
Unset Strict Implicit.
Unset Printing Implicit Defensive.
Local Open Scope ring_scope.

Definition fadd (F : fieldType) (x y : F) : F := x + y.
Definition fmul (F : fieldType) (x y : F) : F := x * y.
Definition fopp (F : fieldType) (x : F) : F := - x.
Definition fsub (F : fieldType) (x y : F) : F := fadd x (fopp y).
Definition fzero (F : fieldType) : F := 0.
Definition fone (F : fieldType) : F := 1.
Definition finv (F : fieldType) (x : F) : F := x^-1.
Definition fdiv (F : fieldType) (x y : F) : F := fmul x (finv y).

Lemma cfield (F : fieldType) :
  field_theory (fzero F) (fone F) (@fadd F) (@fmul F) (@fsub F) (@fopp F) (@fdiv F) (@finv F) eq.
Proof.
  split.
  - split.
    + exact: add0r. + exact: addrC. + exact: addrA. + exact: mul1r. + exact: mulrC.
    + exact: mulrA. + exact: mulrDl. + by []. + exact: subrr.
  - move=> H. move: (oner_neq0 F). by rewrite -[1]/(fone F) H eqxx.
  - by [].
  - move=> p /eqP H. exact: mulVf.
Qed.

Lemma fsub_eq (F : fieldType) (l r : F) : fsub l r = fzero F -> l = r.
Proof. by rewrite /fsub /fadd /fopp => /eqP; rewrite subr_eq0 => /eqP. Qed.

Ltac natlit F n :=
  match n with
  | O => constr:(fzero F)
  | S O => constr:(fone F)
  | S ?m => let r := natlit F m in constr:(@fadd F (fone F) r)
  end.

Ltac to_fld0 F :=
  repeat match goal with
  | |- context [@GRing.natmul ?V (@GRing.one ?R) ?n] =>
      let n' := eval compute in n in
      let r := natlit F n' in change (@GRing.natmul V (@GRing.one R) n) with r
  | |- context [@GRing.add ?V ?x ?y] => change (@GRing.add V x y) with (@fadd F x y)
  | |- context [@GRing.mul ?V ?x ?y] => change (@GRing.mul V x y) with (@fmul F x y)
  | |- context [@GRing.opp ?V ?x] => change (@GRing.opp V x) with (@fopp F x)
  | |- context [@GRing.inv ?V ?x] => change (@GRing.inv V x) with (@finv F x)
  | |- context [@GRing.exp ?V ?x 2] => change (@GRing.exp V x 2) with (@fmul F x x)
  | |- context [@GRing.exp ?V ?x 3] => change (@GRing.exp V x 3) with (@fmul F x (@fmul F x x))
  | |- context [@GRing.zero ?a] => change (@GRing.zero a) with (fzero F)
  | |- context [@GRing.one ?a] => change (@GRing.one a) with (fone F)
  end.
Ltac to_fld F :=
  to_fld0 F; match goal with |- @eq _ ?l ?r => refine (@fsub_eq F l r _) end.

