(* Cross products and the functions on column-major arrays. *)
From mathcomp Require Import all_ssreflect all_algebra.
From Verif Require Import MatModel MatSpec MatProofs MatProofs2.
From Coq Require Import Ring Field.
Import GRing.Theory.
Set Implicit Arguments.
Unset Strict Implicit.
Unset Printing Implicit Defensive.
Local Open Scope ring_scope.

Ltac nrv A := repeat match goal with |- context [A ?i] =>
  let i' := eval compute in i in progress change (A i) with (A i') end.
Ltac ents3 := apply/matrixP; case=> [[|[|[|i]]] Hi] //; case=> [[|[|[|j]]] Hj] //.
Ltac ents2 := apply/matrixP; case=> [[|[|i]] Hi] //; case=> [[|[|j]] Hj] //.

Section R.
Variable R : comRingType.
Add Ring cr : (cring R).
Ltac rng := to_ring R; ring.

Lemma cross3_triple (a b c : nat -> R) :
  dot 3 (cross3 a b) c = \det (mx 3 3 (fun i => match i with 0 => a | 1 => b | _ => c end)).
Proof.
  rewrite -det_3_ok /dot loop_sum !big_ord_recl big_ord0 /cross3 /vset /det_3 /=. nrv c. rng.
Qed.

Lemma cross2_det (a b : nat -> R) :
  cross2 a b = \det (mx 2 2 (fun i => match i with 0 => a | _ => b end)).
Proof. rewrite -det_2_ok /cross2 /det_2 /=. rng. Qed.

Lemma cross_matrix_ok (a b : nat -> R) :
  mx 3 3 (cross_matrix a) *m cv 3 b = cv 3 (cross3 a b).
Proof.
  apply/matrixP; case=> [[|[|[|i]]] Hi] // j;
  rewrite !mxE !big_ord_recl big_ord0 !mxE /cross_matrix /cross3 /mset /vset /=; nrv b; rng.
Qed.

Lemma math_cross_ok (a b : nat -> R) i : (i < 3)%N -> math_cross a b i = cross3 a b i.
Proof. case: i => [|[|[|i]]] // _; rewrite /math_cross /cross3 /vset /=; rng. Qed.

Lemma mm3_ok (a b : nat -> R) :
  colmajor 3 3 (arr (matrixMatrixMultiplication3d a b)) = colmajor 3 3 a *m colmajor 3 3 b.
Proof.
  ents3; rewrite !mxE !big_ord_recl big_ord0 !mxE /arr /=; nrv a; nrv b; rng.
Qed.
Lemma mm2_ok (a b : nat -> R) :
  colmajor 2 2 (arr (matrixMatrixMultiplication2d a b)) = colmajor 2 2 a *m colmajor 2 2 b.
Proof. ents2; rewrite !mxE !big_ord_recl big_ord0 !mxE /arr /=; nrv a; nrv b; rng. Qed.

Lemma tm3_ok (a b : nat -> R) :
  colmajor 3 3 (arr (matrixTransposeMatrixMultiplication3d a b)) = (colmajor 3 3 a)^T *m colmajor 3 3 b.
Proof. ents3; rewrite !mxE !big_ord_recl big_ord0 !mxE /arr /=; nrv a; nrv b; rng. Qed.
Lemma tm2_ok (a b : nat -> R) :
  colmajor 2 2 (arr (matrixTransposeMatrixMultiplication2d a b)) = (colmajor 2 2 a)^T *m colmajor 2 2 b.
Proof. ents2; rewrite !mxE !big_ord_recl big_ord0 !mxE /arr /=; nrv a; nrv b; rng. Qed.

Lemma mt3_ok (a b : nat -> R) :
  colmajor 3 3 (arr (matrixMatrixTransposeMultiplication3d a b)) = colmajor 3 3 a *m (colmajor 3 3 b)^T.
Proof. ents3; rewrite !mxE !big_ord_recl big_ord0 !mxE /arr /=; nrv a; nrv b; rng. Qed.
Lemma mt2_ok (a b : nat -> R) :
  colmajor 2 2 (arr (matrixMatrixTransposeMultiplication2d a b)) = colmajor 2 2 a *m (colmajor 2 2 b)^T.
Proof. ents2; rewrite !mxE !big_ord_recl big_ord0 !mxE /arr /=; nrv a; nrv b; rng. Qed.

Lemma mdm3_ok (a d b : nat -> R) :
  colmajor 3 3 (arr (matmul_mat_diag_matT_3D a d b))
  = colmajor 3 3 a *m diag_mx (rv 3 d) *m (colmajor 3 3 b)^T.
Proof.
  rewrite mul_mx_diag. ents3; rewrite !mxE !big_ord_recl big_ord0 !mxE /arr /=; nrv a; nrv b; nrv d; rng.
Qed.
Lemma mdm2_ok (a d b : nat -> R) :
  colmajor 2 2 (arr (matmul_mat_diag_matT_2D a d b))
  = colmajor 2 2 a *m diag_mx (rv 2 d) *m (colmajor 2 2 b)^T.
Proof.
  rewrite mul_mx_diag. ents2; rewrite !mxE !big_ord_recl big_ord0 !mxE /arr /=; nrv a; nrv b; nrv d; rng.
Qed.

Lemma mv3_ok (x v : nat -> R) :
  cv 3 (arr (matrixVectorMultiplication3d x v)) = colmajor 3 3 x *m cv 3 v.
Proof.
  apply/matrixP; case=> [[|[|[|i]]] Hi] // j; rewrite !mxE !big_ord_recl big_ord0 !mxE /arr /=; nrv x; nrv v; rng.
Qed.
Lemma mv2_ok (x v : nat -> R) :
  cv 2 (arr (matrixVectorMultiplication2d x v)) = colmajor 2 2 x *m cv 2 v.
Proof.
  apply/matrixP; case=> [[|[|i]] Hi] // j; rewrite !mxE !big_ord_recl big_ord0 !mxE /arr /=; nrv x; nrv v; rng.
Qed.
Lemma vm3_ok (v x : nat -> R) :
  rv 3 (arr (vectorMatrixMultiplication3d v x)) = rv 3 v *m colmajor 3 3 x.
Proof.
  apply/matrixP => i; case=> [[|[|[|j]]] Hj] //; rewrite !mxE !big_ord_recl big_ord0 !mxE /arr /=; nrv x; nrv v; rng.
Qed.
Lemma vm2_ok (v x : nat -> R) :
  rv 2 (arr (vectorMatrixMultiplication2d v x)) = rv 2 v *m colmajor 2 2 x.
Proof.
  apply/matrixP => i; case=> [[|[|j]] Hj] //; rewrite !mxE !big_ord_recl big_ord0 !mxE /arr /=; nrv x; nrv v; rng.
Qed.

Lemma tr3_ok (x : nat -> R) : colmajor 3 3 (arr (matrixTranspose3d x)) = (colmajor 3 3 x)^T.
Proof. ents3; rewrite !mxE /arr /=; by nrv x. Qed.
Lemma tr2_ok (x : nat -> R) : colmajor 2 2 (arr (matrixTranspose2d x)) = (colmajor 2 2 x)^T.
Proof. ents2; rewrite !mxE /arr /=; by nrv x. Qed.

Lemma trace3_ok (x : nat -> R) : matrixTrace3d x = \tr (colmajor 3 3 x).
Proof. rewrite /mxtrace !big_ord_recl big_ord0 !mxE /matrixTrace3d /=. nrv x. rng. Qed.
Lemma trace2_ok (x : nat -> R) : matrixTrace2d x = \tr (colmajor 2 2 x).
Proof. rewrite /mxtrace !big_ord_recl big_ord0 !mxE /matrixTrace2d /=. nrv x. rng. Qed.

Lemma colmajor_mx (d e : nat) (x : nat -> R) : colmajor d e x = mx d e (fun i j => x (i + d * j)%N).
Proof. by []. Qed.

Lemma mdet3_ok (x : nat -> R) : matrixDeterminant3d x = \det (colmajor 3 3 x).
Proof. rewrite colmajor_mx -det_3_ok /det_3 /matrixDeterminant3d. nrv x. rng. Qed.
Lemma mdet2_ok (x : nat -> R) : matrixDeterminant2d x = \det (colmajor 2 2 x).
Proof. rewrite colmajor_mx -det_2_ok /det_2 /matrixDeterminant2d. nrv x. rng. Qed.

(* the cofactors of the 2 x 2 and 3 x 3 matrices *)
Lemma det2E (M : 'M[R]_2) : \det M = M 0 0 * M 1 1 - M 0 1 * M 1 0.
Proof.
  have E : M = mx 2 2 (fun i j => M (inord i) (inord j)).
  { apply/matrixP => i j. rewrite mxE. congr (M _ _); apply: val_inj; by rewrite /= inordK. }
  rewrite {1}E -det_2_ok /det_2.
  have -> : inord 0 = 0 :> 'I_2 by apply: val_inj; rewrite /= inordK.
  have -> : inord 1 = 1 :> 'I_2 by apply: val_inj; rewrite /= inordK.
  rng.
Qed.

Lemma cof2_ok (x : nat -> R) :
  colmajor 2 2 (arr (matrixCofactor2d x)) = \matrix_(i, j) cofactor (colmajor 2 2 x) i j.
Proof.
  ents2; rewrite !mxE /cofactor /= det_mx11 !mxE /arr /=; nrv x;
  rewrite ?addn0 ?add0n ?addn1 ?add1n /= ?expr0 ?expr1 ?sqrrN ?expr1n; rng.
Qed.

Lemma cof3_ok (x : nat -> R) :
  colmajor 3 3 (arr (matrixCofactor3d x)) = \adj (colmajor 3 3 x).
Proof.
  ents3; rewrite !mxE /cofactor /= det2E !mxE /arr /= /bump /=; nrv x;
  rewrite -signr_odd /= ?expr0 ?expr1; rng.
Qed.
End R.
