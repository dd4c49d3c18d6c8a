(* Gram-Schmidt orthogonalisation. *)
From mathcomp Require Import all_ssreflect all_algebra.
From Coq Require Import Field.
From Verif Require Import FieldTac MatModel MatSpec MatProofs MatProofs2 RotModel RotSpec RotProofs SvdModel SvdSpec SvdProofs SvdProofs2.
Set Implicit Arguments.
Unset Strict Implicit.
Unset Printing Implicit Defensive.
Import GRing.Theory Num.Theory Order.Theory.
Local Open Scope ring_scope.

Section Gs.
Variable T : rcfType.
Let F : fieldType := [fieldType of T].
Add Field ff : (cfield F).
Ltac fld := to_fld F; field.
Implicit Types (A : nat -> nat -> T) (v w : nat -> T).

Lemma l2_3 v : l2NormSqr 3 v = v 0%N * v 0%N + v 1%N * v 1%N + v 2%N * v 2%N.
Proof. exact: (dot_3 v v). Qed.
Lemma l2_3_0 v : l2NormSqr 3 v = 0 -> [/\ v 0%N = 0, v 1%N = 0 & v 2%N = 0].
Proof.
rewrite l2_3 => /eqP; rewrite paddr_eq0 ?addr_ge0 -?expr2 ?sqr_ge0 //.
rewrite paddr_eq0 ?sqr_ge0 // !sqrf_eq0 => /andP[/andP[/eqP -> /eqP ->] /eqP ->]; by split.
Qed.
Lemma normK v i : (i < 3)%N -> l2NormSqr 3 v <> 0 -> normalized 3 v i * length 3 v = v i.
Proof. by move=> h n; rewrite normalizedE // divfK // gt_eqF // length_gt0. Qed.
Lemma norm_dot v w : l2NormSqr 3 v <> 0 -> dot 3 (normalized 3 v) w * length 3 v = dot 3 v w.
Proof.
move=> n; rewrite !dot_3 -[in RHS](normK (i := 0)) // -[in RHS](normK (i := 1)) // -[in RHS](normK (i := 2)) //.
by set l := length _ _; fld.
Qed.
Lemma norm1 v : l2NormSqr 3 v <> 0 -> dot 3 (normalized 3 v) (normalized 3 v) = 1.
Proof. exact: normalized_unit. Qed.
Lemma dotC3 v w : dot 3 v w = dot 3 w v. Proof. by rewrite !dot_3; fld. Qed.

Lemma gs_ok A : \det (mx 3 3 A) <> 0 ->
  let: (Q, R) := gram_schmidt A in
  [/\ mx 3 3 Q *m mx 3 3 R = mx 3 3 A, (mx 3 3 Q)^T *m mx 3 3 Q = 1%:M, upper_triangular (mx 3 3 R)
    & [/\ 0 < R 0%N 0%N, 0 < R 1%N 1%N & 0 < R 2%N 2%N]].
Proof.
rewrite -det_3_ok /det_3 => dA; rewrite /gram_schmidt.
set d1 := fun i => A i 0%N; set d2 := fun i => A i 1%N; set d3 := fun i => A i 2%N.
set q1 := normalized 3 d1; set r11 := length 3 d1; set r12 := dot 3 d2 q1.
set p2 := fun i => d2 i - _; set r22 := length 3 p2; set q2 := normalized 3 p2.
set r13 := dot 3 d3 q1; set r23 := dot 3 d3 q2.
set p3 := fun i => d3 i - _ - _; set r33 := length 3 p3; set q3 := normalized 3 p3.
have l1 : l2NormSqr 3 d1 <> 0.
  move/l2_3_0 => [e0 e1 e2]; apply: dA; rewrite /d1 in e0 e1 e2; rewrite e0 e1 e2; by fld.
have c1 i (h : (i < 3)%N) : A i 0%N = q1 i * r11 by rewrite normK.
have l2 : l2NormSqr 3 p2 <> 0.
  move/l2_3_0 => [e0 e1 e2]; apply: dA.
  have x i : p2 i = 0 -> A i 1%N = r12 * q1 i by move/eqP; rewrite subr_eq0 => /eqP.
  by rewrite !x // !c1 //; fld.
have c2 i (h : (i < 3)%N) : A i 1%N = r12 * q1 i + q2 i * r22 by rewrite normK // addrC subrK.
have l3 : l2NormSqr 3 p3 <> 0.
  move/l2_3_0 => [e0 e1 e2]; apply: dA.
  have x i : p3 i = 0 -> A i 2%N = r13 * q1 i + r23 * q2 i.
    by move/eqP; rewrite /p3 -addrA -opprD subr_eq0 => /eqP.
  by rewrite !x // !c2 // !c1 //; fld.
have c3 i (h : (i < 3)%N) : A i 2%N = r13 * q1 i + r23 * q2 i + q3 i * r33.
  by rewrite normK // /p3 /d3; fld.
have r11p : 0 < r11 by apply: length_gt0.
have r22p : 0 < r22 by apply: length_gt0.
have r33p : 0 < r33 by apply: length_gt0.
have q11 : dot 3 q1 q1 = 1 by apply: norm1.
have q22 : dot 3 q2 q2 = 1 by apply: norm1.
have q33 : dot 3 q3 q3 = 1 by apply: norm1.
have q21 : dot 3 q2 q1 = 0.
  apply: (mulIf (x := r22)); rewrite ?gt_eqF // mul0r norm_dot //.
  transitivity (r12 - r12 * dot 3 q1 q1); last by rewrite q11 mulr1 subrr.
  by rewrite {1}/r12 !dot_3 /p2; set r := r12; fld.
have q31 : dot 3 q3 q1 = 0.
  apply: (mulIf (x := r33)); rewrite ?gt_eqF // mul0r norm_dot //.
  transitivity (r13 - r13 * dot 3 q1 q1 - r23 * dot 3 q2 q1); last by rewrite q11 q21 mulr1 mulr0 subrr subr0.
  by rewrite {1}/r13 !dot_3 /p3; set r := r13; set r' := r23; fld.
have q32 : dot 3 q3 q2 = 0.
  apply: (mulIf (x := r33)); rewrite ?gt_eqF // mul0r norm_dot //.
  transitivity (r23 - r13 * dot 3 q2 q1 - r23 * dot 3 q2 q2); last by rewrite q22 q21 mulr1 mulr0 subr0 subrr.
  by rewrite {1}/r23 !dot_3 /p3; set r := r13; set r' := r23; fld.
set Q := loop 3 _ _; set R := mset _ 2 2 r33.
have Q0 i : (i < 3)%N -> Q i 0%N = q1 i by case: i => [|[|[|]]].
have Q1 i : (i < 3)%N -> Q i 1%N = q2 i by case: i => [|[|[|]]].
have Q2 i : (i < 3)%N -> Q i 2%N = q3 i by case: i => [|[|[|]]].
have R00 : R 0%N 0%N = r11 by [].
have R01 : R 0%N 1%N = r12 by [].
have R02 : R 0%N 2%N = r13 by [].
have R10 : R 1%N 0%N = 0 by [].
have R11 : R 1%N 1%N = r22 by [].
have R12 : R 1%N 2%N = r23 by [].
have R20 : R 2%N 0%N = 0 by [].
have R21 : R 2%N 1%N = 0 by [].
have R22 : R 2%N 2%N = r33 by [].
clearbody Q R q1 q2 q3 r11 r12 r13 r22 r23 r33.
split.
- ents3; rewrite !mxE !big_ord_recl big_ord0 !mxE /=; nrm Q; nrm R; nrm A;
    rewrite !Q0 // !Q1 // !Q2 // ?R00 ?R01 ?R02 ?R10 ?R11 ?R12 ?R20 ?R21 ?R22 ?c1 ?c2 ?c3 //; fld.
- ents3; rewrite !mxE !big_ord_recl big_ord0 !mxE /=; nrm Q; rewrite ?Q0 ?Q1 ?Q2 // -?val_eqE /=.
  + by transitivity (dot 3 q1 q1); [rewrite dot_3; fld | rewrite q11].
  + by transitivity (dot 3 q2 q1); [rewrite dot_3; fld | rewrite q21].
  + by transitivity (dot 3 q3 q1); [rewrite dot_3; fld | rewrite q31].
  + by transitivity (dot 3 q2 q1); [rewrite dot_3; fld | rewrite q21].
  + by transitivity (dot 3 q2 q2); [rewrite dot_3; fld | rewrite q22].
  + by transitivity (dot 3 q3 q2); [rewrite dot_3; fld | rewrite q32].
  + by transitivity (dot 3 q3 q1); [rewrite dot_3; fld | rewrite q31].
  + by transitivity (dot 3 q3 q2); [rewrite dot_3; fld | rewrite q32].
  + by transitivity (dot 3 q3 q3); [rewrite dot_3; fld | rewrite q33].
- by move=> [[|[|[|i]]] hi] [[|[|[|j]]] hj] //= _; rewrite !mxE /= ?R10 ?R20 ?R21.
- by rewrite R00 R11 R22.
Qed.
End Gs.
