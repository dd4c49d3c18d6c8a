(* Inverses, cross products, the array functions. *)
From mathcomp Require Import all_ssreflect all_algebra.
From Verif Require Import MatModel MatSpec MatProofs MatProofs2.
From Coq Require Import Ring Field.
Import GRing.Theory.
Set Implicit Arguments.
Unset Strict Implicit.
Unset Printing Implicit Defensive.
Local Open Scope ring_scope.

Ltac nrm A := repeat match goal with |- context [A ?i ?j] =>
  let i' := eval compute in i in let j' := eval compute in j in
  progress change (A i j) with (A i' j') end.
Ltac nrv A := repeat match goal with |- context [A ?i] =>
  let i' := eval compute in i in progress change (A i) with (A i') end.


Section F.
Variable F : fieldType.
Add Ring fr : (cring F).
Ltac rng := to_ring F; ring.

Lemma inv_from_adj n (A B : nat -> nat -> F) (d : F) :
  d != 0 ->
  (forall i j, (i < n)%N -> (j < n)%N ->
     \sum_(k < n) A i k * B k j = if i == j then d else 0) ->
  mx n n (fun i j => B i j / d) = invmx (mx n n A).
Proof.
  move=> Hd H.
  have E : mx n n A *m mx n n (fun i j => B i j / d) = 1%:M.
  { apply/matrixP => i j. rewrite !mxE.
    transitivity ((\sum_(k < n) A i k * B k j) / d).
    - rewrite mulr_suml. apply: eq_bigr => k _. by rewrite !mxE mulrA.
    - rewrite H //. rewrite -val_eqE /=. case: eqP => _; rewrite /= ?mul0r //. by rewrite divff. }
  case: (mulmx1_unit E) => U _.
  by rewrite -[LHS]mul1mx -(mulVmx U) -mulmxA E mulmx1.
Qed.

Lemma inverse_1_ok (A : nat -> nat -> F) :
  \det (mx 1 1 A) != 0 -> mx 1 1 (inverse_1 A) = invmx (mx 1 1 A).
Proof.
  rewrite -det_1_ok => H. rewrite -(@inv_from_adj 1 A (fun _ _ => 1) (det_1 A)) //.
  - apply: mx_ext => [[|i]] [|j] //.
  - move=> [|i] [|j] // _ _. by rewrite big_ord1 mulr1.
Qed.

Lemma inverse_2_ok (A : nat -> nat -> F) :
  \det (mx 2 2 A) != 0 -> mx 2 2 (inverse_2 A) = invmx (mx 2 2 A).
Proof.
  rewrite -det_2_ok => H.
  set B := fun i j : nat => match i, j with
    | 0, 0 => A 1%N 1%N | 0, _ => - A 0%N 1%N | _, 0 => - A 1%N 0%N | _, _ => A 0%N 0%N end.
  rewrite -(@inv_from_adj 2 A B (det_2 A)) //.
  - apply: mx_ext => [[|[|i]]] [|[|j]] // _ _; by rewrite /inverse_2 /mset /= div1r.
  - move=> [|[|i]] [|[|j]] // _ _; rewrite !big_ord_recl big_ord0 /= /det_2; nrm A; rng.
Qed.

Lemma inverse_3_ok (A : nat -> nat -> F) :
  \det (mx 3 3 A) != 0 -> mx 3 3 (inverse_3 A) = invmx (mx 3 3 A).
Proof.
  rewrite -det_3_ok => H.
  set d := cofactor3 0 0 A * A 0%N 0%N + cofactor3 1 0 A * A 1%N 0%N + cofactor3 2 0 A * A 2%N 0%N.
  have Ed : d = det_3 A by rewrite /d /cofactor3 /det_3; nrm A; rng.
  rewrite -(@inv_from_adj 3 A (fun i j => cofactor3 j i A) d); last 2 first.
  - by rewrite Ed.
  - move=> i j Hi Hj.
    case: i Hi => [|[|[|i]]] // _; case: j Hj => [|[|[|j]]] // _;
    rewrite !big_ord_recl big_ord0 /= ?Ed /cofactor3 /det_3; nrm A; rng.
  - apply: mx_ext => i j Hi Hj.
    case: i Hi => [|[|[|i]]] // _; case: j Hj => [|[|[|j]]] // _;
    by rewrite /inverse_3 /mset /= -/d div1r.
Qed.

Lemma inverse_4_ok (A : nat -> nat -> F) :
  \det (mx 4 4 A) != 0 -> mx 4 4 (inverse_4 A) = invmx (mx 4 4 A).
Proof.
  rewrite -det_4_ok => H.
  set B := fun i j : nat => if odd (i + j) then - cofactor4 j i A else cofactor4 j i A.
  set d := A 0%N 0%N * B 0%N 0%N + A 1%N 0%N * B 0%N 1%N + A 2%N 0%N * B 0%N 2%N + A 3%N 0%N * B 0%N 3%N.
  have Ed : d = det_4 A by rewrite /d /B /= /cofactor4 /c_det3 /det_4 /d_det3 /d_det2; nrm A; rng.
  rewrite -(@inv_from_adj 4 A B d); last 2 first.
  - by rewrite Ed.
  - move=> i j Hi Hj.
    case: i Hi => [|[|[|[|i]]]] // _; case: j Hj => [|[|[|[|j]]]] // _;
    rewrite !big_ord_recl big_ord0 ?Ed /B /= /cofactor4 /c_det3 /det_4 /d_det3 /d_det2; nrm A; rng.
  - apply: mx_ext => i j Hi Hj.
    case: i Hi => [|[|[|[|i]]]] // _; case: j Hj => [|[|[|[|j]]]] // _;
    by rewrite /inverse_4 /mset /=.
Qed.

Lemma inverse_ok n (A X : nat -> nat -> F) :
  inverse n A = Some X -> \det (mx n n A) != 0 -> mx n n X = invmx (mx n n A).
Proof.
  case: n => [|[|[|[|[|n]]]]] //= [<-] H.
  - exact: inverse_1_ok. - exact: inverse_2_ok. - exact: inverse_3_ok. - exact: inverse_4_ok.
Qed.
End F.
