(* C57: the matrix functions of zs::vec.  C58: the array helpers of
   MatrixUtils.h and the predicate parallel.
   Specification: MatSpec.v and the matrices of Mathematical Components. *)
From mathcomp Require Import all_ssreflect all_algebra.
From Verif Require Import MatModel MatSpec MatProofs MatProofs2 MatProofs3 MatProofs4.
Import GRing.Theory.
Set Implicit Arguments.
Unset Strict Implicit.
Unset Printing Implicit Defensive.
Local Open Scope ring_scope.

(* products, of all shapes, over every commutative ring *)
Theorem C57_products (R : comRingType) (m n p : nat) (A B : nat -> nat -> R) (x y : nat -> R) :
  mx m p (matmul m n p A B) = mx m n A *m mx n p B
  /\ cv m (matvec m n A x) = mx m n A *m cv n x
  /\ rv n (vecmat m n y A) = rv m y *m mx m n A
  /\ mx n m (transpose m n A) = (mx m n A)^T
  /\ mx m n (dyadic_prod m n y x) = cv m y *m rv n x
  /\ mx m n (diag_mul_r m n A x) = mx m n A *m diag_mx (rv n x)
  /\ mx m n (diag_mul_l m n y A) = diag_mx (rv m y) *m mx m n A.
Proof.
  split; first exact: matmul_ok. split; first exact: matvec_ok. split; first exact: vecmat_ok.
  split; first exact: transpose_ok. split; first exact: dyadic_ok.
  split; first exact: diag_r_ok. exact: diag_l_ok.
Qed.

(* dot products, squared lengths, traces *)
Theorem C57_scalars (R : comRingType) (n : nat) (a b : nat -> R) (A : nat -> nat -> R) :
  dot n a b = \sum_(i < n) a i * b i
  /\ l2NormSqr n a = \sum_(i < n) a i ^+ 2
  /\ trace n A = \tr (mx n n A).
Proof.
  split; first by rewrite /dot loop_sum add0r.
  split; first by rewrite /l2NormSqr loop_sum add0r; apply: eq_bigr => i _; rewrite expr2.
  exact: trace_ok.
Qed.

(* the affine products act on homogeneous coordinates: the last coordinate of
   the point is 1, the last row (column) of the matrix is not looked at *)
Theorem C57_affine (R : comRingType) (m n : nat) (A : nat -> nat -> R) (x : nat -> R) :
  cv m (affine_mv m.+1 n.+1 A x) = mx m n.+1 A *m cv n.+1 (hom n x)
  /\ rv n (affine_vm m.+1 n.+1 x A) = rv m.+1 (hom m x) *m mx m.+1 n A.
Proof. split; [exact: affine_mv_ok | exact: affine_vm_ok]. Qed.

(* determinants of every size *)
Theorem C57_determinant (R : comRingType) (n : nat) (A : nat -> nat -> R) :
  (0 < n)%N -> determinant n A = \det (mx n n A).
Proof. case: n => // n _. exact: determinant_ok. Qed.

(* the inverse, for the sizes it exists for (1 .. 4), over every field *)
Theorem C57_inverse (F : fieldType) (n : nat) (A : nat -> nat -> F) :
  (0 < n <= 4)%N -> \det (mx n n A) != 0 ->
  exists2 X, inverse n A = Some X
           & mx n n A *m mx n n X = 1%:M /\ mx n n X *m mx n n A = 1%:M.
Proof.
  move=> Hn Hd.
  have [X HX] : exists X, inverse n A = Some X.
  { case: n Hn {Hd} => [|[|[|[|[|n]]]]] //= _; by eexists. }
  exists X => //. rewrite (inverse_ok HX Hd).
  have U : mx n n A \in unitmx by rewrite unitmxE unitfE.
  by rewrite mulmxV // mulVmx.
Qed.

(* the cross product: a x b is the vector whose product with every c is the
   determinant of (a; b; c); cross_matrix a maps b to it *)
Theorem C57_cross (R : comRingType) (a b : nat -> R) :
  (forall c, dot 3 (cross3 a b) c
             = \det (mx 3 3 (fun i => match i with 0 => a | 1 => b | _ => c end)))
  /\ mx 3 3 (cross_matrix a) *m cv 3 b = cv 3 (cross3 a b)
  /\ cross2 a b = \det (mx 2 2 (fun i => match i with 0 => a | _ => b end)).
Proof.
  split; first by move=> c; exact: cross3_triple.
  split; [exact: cross_matrix_ok | exact: cross2_det].
Qed.

(* the helpers on column-major arrays, 3 x 3 *)
Theorem C58_arrays3_partial (R : comRingType) (a b d v : nat -> R) :
  colmajor 3 3 (arr (matrixMatrixMultiplication3d a b)) = colmajor 3 3 a *m colmajor 3 3 b
  /\ colmajor 3 3 (arr (matrixTransposeMatrixMultiplication3d a b)) = (colmajor 3 3 a)^T *m colmajor 3 3 b
  /\ colmajor 3 3 (arr (matrixMatrixTransposeMultiplication3d a b)) = colmajor 3 3 a *m (colmajor 3 3 b)^T
  /\ colmajor 3 3 (arr (matmul_mat_diag_matT_3D a d b))
     = colmajor 3 3 a *m diag_mx (rv 3 d) *m (colmajor 3 3 b)^T
  /\ cv 3 (arr (matrixVectorMultiplication3d a v)) = colmajor 3 3 a *m cv 3 v
  /\ rv 3 (arr (vectorMatrixMultiplication3d v a)) = rv 3 v *m colmajor 3 3 a
  /\ colmajor 3 3 (arr (matrixTranspose3d a)) = (colmajor 3 3 a)^T
  /\ matrixTrace3d a = \tr (colmajor 3 3 a)
  /\ matrixDeterminant3d a = \det (colmajor 3 3 a)
  /\ colmajor 3 3 (arr (matrixCofactor3d a)) = \adj (colmajor 3 3 a)
  /\ (forall i, (i < 3)%N -> math_cross a b i = cross3 a b i).
Proof.
  split; first exact: mm3_ok. split; first exact: tm3_ok. split; first exact: mt3_ok.
  split; first exact: mdm3_ok. split; first exact: mv3_ok. split; first exact: vm3_ok.
  split; first exact: tr3_ok. split; first exact: trace3_ok. split; first exact: mdet3_ok.
  split; first exact: cof3_ok. exact: math_cross_ok.
Qed.

(* and 2 x 2 *)
Theorem C58_arrays2_partial (R : comRingType) (a b d v : nat -> R) :
  colmajor 2 2 (arr (matrixMatrixMultiplication2d a b)) = colmajor 2 2 a *m colmajor 2 2 b
  /\ colmajor 2 2 (arr (matrixTransposeMatrixMultiplication2d a b)) = (colmajor 2 2 a)^T *m colmajor 2 2 b
  /\ colmajor 2 2 (arr (matrixMatrixTransposeMultiplication2d a b)) = colmajor 2 2 a *m (colmajor 2 2 b)^T
  /\ colmajor 2 2 (arr (matmul_mat_diag_matT_2D a d b))
     = colmajor 2 2 a *m diag_mx (rv 2 d) *m (colmajor 2 2 b)^T
  /\ cv 2 (arr (matrixVectorMultiplication2d a v)) = colmajor 2 2 a *m cv 2 v
  /\ rv 2 (arr (vectorMatrixMultiplication2d v a)) = rv 2 v *m colmajor 2 2 a
  /\ colmajor 2 2 (arr (matrixTranspose2d a)) = (colmajor 2 2 a)^T
  /\ matrixTrace2d a = \tr (colmajor 2 2 a)
  /\ matrixDeterminant2d a = \det (colmajor 2 2 a)
  /\ colmajor 2 2 (arr (matrixCofactor2d a)) = \matrix_(i, j) cofactor (colmajor 2 2 a) i j.
Proof.
  split; first exact: mm2_ok. split; first exact: tm2_ok. split; first exact: mt2_ok.
  split; first exact: mdm2_ok. split; first exact: mv2_ok. split; first exact: vm2_ok.
  split; first exact: tr2_ok. split; first exact: trace2_ok. split; first exact: mdet2_ok.
  exact: cof2_ok.
Qed.

(* matrixCofactor3d writes the transpose of the cofactor matrix, unlike
   matrixCofactor2d *)
Theorem C58_cofactor3d_refuted :
  ~ (forall (R : comRingType) (a : nat -> R),
       colmajor 3 3 (arr (matrixCofactor3d a)) = \matrix_(i, j) cofactor (colmajor 3 3 a) i j).
Proof.
  move=> H. move: (H _ (arr [:: 1; 1; 0; 0; 1; 0; 0; 0; 1 : int])).
  rewrite cof3_ok => /matrixP /(_ (inord 0) (inord 1)). rewrite !mxE.
  rewrite /cofactor !det2E !mxE /= /bump !inordK //=.
Qed.

(* vec_crossMul_vec_3D adds where a cross product subtracts *)
Theorem C58_crossMul_refuted :
  ~ (forall (R : comRingType) (a b : nat -> R) i, (i < 3)%N ->
       vec_crossMul_vec_3D a b i = cross3 a b i).
Proof.
  move=> H. have := H _ (arr [:: 0; 1; 0 : int]) (arr [:: 1; 0; 0 : int]) 2%N isT.
  by [].
Qed.

(* parallel holds of perpendicular vectors *)
Theorem C58_parallel_refuted :
  exists a b : nat -> int, dot 3 a b = 0 /\ dot 3 a a = 1 /\ dot 3 b b = 1 /\ parallel3 a b = true.
Proof. by exists (arr [:: 1; 0; 0 : int]), (arr [:: 0; 1; 0 : int]). Qed.

(* ---------- cases ---------- *)
(* a 5 x 5 determinant *)
Example C57_case_det :
  determinant 5 (fun i j => nth 0 (nth [::] [:: [:: 2; 1; 0; 0; 3]; [:: 0; 1; 4; 0; 0]; [:: 5; 0; 1; 0; 0];
     [:: 0; 0; 2; 1; 0]; [:: 1; 0; 0; 0; 1 : int]] i) j) = 19.
Proof. by vm_compute. Qed.

(* an invertible 3 x 3 matrix *)
Example C57_case_inv :
  let A := fun i j => nth 0 (nth [::] [:: [:: 2; 1; 0]; [:: 0; 1; 4]; [:: 5; 0; 1 : rat]] i) j in
  (0 < 3 <= 4)%N /\ \det (mx 3 3 A) != 0 /\ determinant 3 A = 22%:R.
Proof. split => //. by rewrite -(C57_determinant _ (n := 3)) //; split; vm_compute. Qed.

Print Assumptions C57_products.
Print Assumptions C57_scalars.
Print Assumptions C57_affine.
Print Assumptions C57_determinant.
Print Assumptions C57_inverse.
Print Assumptions C57_cross.
Print Assumptions C58_arrays3_partial.
Print Assumptions C58_arrays2_partial.
Print Assumptions C58_cofactor3d_refuted.
Print Assumptions C58_crossMul_refuted.
Print Assumptions C58_parallel_refuted.
