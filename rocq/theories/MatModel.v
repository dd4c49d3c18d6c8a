(* Matrices and vectors of zs::vec: products, transposition, determinant,
   inverse.
   math/VecInterface.hpp, math/Vec.h, math/matrix/MatrixUtils.h,
   math/matrix/Utility.h.

   A vec<T, Ni, Nj> is its accessor (i, j) |-> A(i, j) and a vec<T, N> its
   accessor i |-> v(i) (that distinct indices name distinct entries is what the
   index maps of C02 are about); entries outside the extents are never
   read or written by the loops below.  Element types are abstract commutative
   rings and fields: rounding and overflow are not modelled.  Loops are folds
   over the index range, assignments to an entry are updates of the
   accessor. *)
From mathcomp Require Import all_ssreflect all_algebra.
Import GRing.Theory.
Set Implicit Arguments.
Unset Strict Implicit.
Unset Printing Implicit Defensive.
Local Open Scope ring_scope.

(* for (i = 0; i != n; ++i) f *)
Definition loop (S : Type) (n : nat) (f : nat -> S -> S) (s : S) : S :=
  foldl (fun s i => f i s) s (iota 0 n).

Section Ring.
Variable R : comRingType.

Notation vec := (nat -> R).
Notation mat := (nat -> nat -> R).

(* v(i) = x *)
Definition vset (v : vec) (i : nat) (x : R) : vec :=
  fun a => if a == i then x else v a.
(* m(i, j) = x *)
Definition mset (m : mat) (i j : nat) (x : R) : mat :=
  fun a b => if (a == i) && (b == j) then x else m a b.
(* variant_vec<...> r{}: the initial contents do not matter; zero here *)
Definition vnew : vec := fun _ => 0.
Definition mnew : mat := fun _ _ => 0.

(* VecInterface.hpp 445-454: transpose (M x N) *)
Definition transpose (M N : nat) (A : mat) : mat :=
  loop M (fun i r => loop N (fun j r => mset r j i (A i j)) r) mnew.

(* VecInterface.hpp 764-781: matrix-matrix product *)
Definition matmul (Ni Nk Nj : nat) (A B : mat) : mat :=
  loop Ni (fun i r =>
    loop Nj (fun j r =>
      loop Nk (fun k r => mset r i j (r i j + A i k * B k j)) (mset r i j 0)) r) mnew.

(* VecInterface.hpp 782-798: matrix-vector product (M x N) *)
Definition matvec (M N : nat) (A : mat) (x : vec) : vec :=
  loop M (fun i r =>
    loop N (fun j r => vset r i (r i + A i j * x j)) (vset r i 0)) vnew.

(* VecInterface.hpp 799-814: vector-matrix product (M x N) *)
Definition vecmat (M N : nat) (x : vec) (A : mat) : vec :=
  loop N (fun j r =>
    loop M (fun i r => vset r j (r j + A i j * x i)) (vset r j 0)) vnew.

(* VecInterface.hpp 918-928: dot *)
Definition dot (n : nat) (a b : vec) : R := loop n (fun i res => res + a i * b i) 0.

(* VecInterface.hpp 470-477: l2NormSqr *)
Definition l2NormSqr (n : nat) (a : vec) : R := loop n (fun i res => res + a i * a i) 0.

(* VecInterface.hpp 940-956: cross in 3D *)
Definition cross3 (a b : vec) : vec :=
  vset (vset (vset vnew 0 (a 1%N * b 2%N - a 2%N * b 1%N))
             1 (a 2%N * b 0%N - a 0%N * b 2%N))
       2 (a 0%N * b 1%N - a 1%N * b 0%N).

(* VecInterface.hpp 929-938: cross in 2D *)
Definition cross2 (a b : vec) : R := a 0%N * b 1%N - a 1%N * b 0%N.

(* Vec.h 375-390: cross_matrix *)
Definition cross_matrix (v : vec) : mat :=
  let m := mset (mset (mset mnew 2 2 0) 1 1 0) 0 0 0 in
  let m := mset m 0 1 (- v 2%N) in
  let m := mset m 0 2 (v 1%N) in
  let m := mset m 1 0 (v 2%N) in
  let m := mset m 1 2 (- v 0%N) in
  let m := mset m 2 0 (- v 1%N) in
  mset m 2 1 (v 0%N).

(* Vec.h 445-453: trace *)
Definition trace (n : nat) (m : mat) : R := loop n (fun i r => r + m i i) 0.

(* Vec.h 455-467: dyadic_prod *)
Definition dyadic_prod (nrows ncols : nat) (c r : vec) : mat :=
  loop nrows (fun i m => loop ncols (fun j m => mset m i j (c i * r j)) m) mnew.

(* Vec.h 660-671, 672-683: diag_mul, diagonal on the right and on the left *)
Definition diag_mul_r (M N : nat) (A : mat) (d : vec) : mat :=
  loop M (fun i r => loop N (fun j r => mset r i j (A i j * d j)) r) mnew.
Definition diag_mul_l (M N : nat) (d : vec) (A : mat) : mat :=
  loop M (fun i r => loop N (fun j r => mset r i j (A i j * d i)) r) mnew.

(* Vec.h 685-703: affine transform A * x of a point x with ncols - 1 entries *)
Definition affine_mv (nrows ncols : nat) (A : mat) (x : vec) : vec :=
  loop nrows.-1 (fun i r =>
    loop ncols (fun j r =>
      vset r i (r i + (if j == ncols.-1 then A i j else A i j * x j))) (vset r i 0)) vnew.

(* Vec.h 704-721: affine transform x * A *)
Definition affine_vm (nrows ncols : nat) (x : vec) (A : mat) : vec :=
  loop ncols.-1 (fun j r =>
    loop nrows (fun i r =>
      vset r j (r j + (if i == nrows.-1 then A i j else A i j * x i))) (vset r j 0)) vnew.

(* Vec.h 470-473: detail::det2<i0, i1> *)
Definition d_det2 (i0 i1 : nat) (A : mat) : R := A i0 0%N * A i1 1%N - A i1 0%N * A i0 1%N.
(* Vec.h 474-481: detail::det3<i0, i1, i2>(A, d0, d1, d2) *)
Definition d_det3 (i0 i1 i2 : nat) (A : mat) (d0 d1 d2 : R) : R :=
  A i0 2%N * d0 + (- A i1 2%N * d1 + A i2 2%N * d2).
(* Vec.h 482-492: detail::cofactor<i, j>, 3 x 3 *)
Definition cofactor3 (i j : nat) (A : mat) : R :=
  let i1 := ((i + 1) %% 3)%N in
  let i2 := ((i + 2) %% 3)%N in
  let j1 := ((j + 1) %% 3)%N in
  let j2 := ((j + 2) %% 3)%N in
  A i1 j1 * A i2 j2 - A i1 j2 * A i2 j1.
(* Vec.h 493-499: detail::det3<i1, i2, i3, j1, j2, j3> *)
Definition c_det3 (i1 i2 i3 j1 j2 j3 : nat) (A : mat) : R :=
  A i1 j1 * (A i2 j2 * A i3 j3 - A i2 j3 * A i3 j2).
(* Vec.h 500-513: detail::cofactor<i, j>, 4 x 4 *)
Definition cofactor4 (i j : nat) (A : mat) : R :=
  let i1 := ((i + 1) %% 4)%N in
  let i2 := ((i + 2) %% 4)%N in
  let i3 := ((i + 3) %% 4)%N in
  let j1 := ((j + 1) %% 4)%N in
  let j2 := ((j + 2) %% 4)%N in
  let j3 := ((j + 3) %% 4)%N in
  c_det3 i1 i2 i3 j1 j2 j3 A + c_det3 i2 i3 i1 j1 j2 j3 A + c_det3 i3 i1 i2 j1 j2 j3 A.

(* Vec.h 519-521, 525-527, 531-535, 539-551: determinant of the sizes 1 .. 4 *)
Definition det_1 (A : mat) : R := A 0%N 0%N.
Definition det_2 (A : mat) : R := A 0%N 0%N * A 1%N 1%N - A 1%N 0%N * A 0%N 1%N.
Definition det_3 (A : mat) : R :=
  A 0%N 0%N * (A 1%N 1%N * A 2%N 2%N - A 1%N 2%N * A 2%N 1%N)
  - A 0%N 1%N * (A 1%N 0%N * A 2%N 2%N - A 1%N 2%N * A 2%N 0%N)
  + A 0%N 2%N * (A 1%N 0%N * A 2%N 1%N - A 1%N 1%N * A 2%N 0%N).
Definition det_4 (A : mat) : R :=
  let d2_01 := d_det2 0 1 A in
  let d2_02 := d_det2 0 2 A in
  let d2_03 := d_det2 0 3 A in
  let d2_12 := d_det2 1 2 A in
  let d2_13 := d_det2 1 3 A in
  let d2_23 := d_det2 2 3 A in
  let d3_0 := d_det3 1 2 3 A d2_23 d2_13 d2_12 in
  let d3_1 := d_det3 0 2 3 A d2_23 d2_03 d2_02 in
  let d3_2 := d_det3 0 1 3 A d2_13 d2_03 d2_01 in
  let d3_3 := d_det3 0 1 2 A d2_12 d2_02 d2_01 in
  - A 0%N 3%N * d3_0 + A 1%N 3%N * d3_1 + - A 2%N 3%N * d3_2 + A 3%N 3%N * d3_3.

(* Vec.h 564-574: the minor of row 0 and column j; state (cOffset, m) *)
Definition fill_minor (dim j : nat) (A : mat) (m : mat) : mat :=
  foldl (fun m r =>
    (loop dim (fun c (s : nat * mat) =>
       let (cOffset, m) := s in
       if c == j then (1%N, m) else (cOffset, mset m r.-1 (c - cOffset) (A r c))) (0%N, m)).2)
    m (iota 1 dim.-1).

(* Vec.h 552-578: determinant; sizes above 4 expand along row 0.
   Size 0 does not exist. *)
Fixpoint determinant (n : nat) (A : mat) {struct n} : R :=
  match n with
  | 0 => 0
  | 1 => det_1 A
  | 2 => det_2 A
  | 3 => det_3 A
  | 4 => det_4 A
  | S n' =>
      (loop n (fun j (s : R * mat) =>
         let (det, m) := s in
         let m := fill_minor n j A m in
         (det + (if odd j then -1 else 1) * A 0%N j * determinant n' m, m)) (0, mnew)).1
  end.

(* MatrixUtils.h 10-17 and 25-47: matmul_mat_diag_matT_2D/3D.
   Arrays are column-major: x[i + d * j] is entry (i, j). *)
Definition matmul_mat_diag_matT_2D (m1 d m2 : vec) : seq R :=
  [:: m1 0%N * d 0%N * m2 0%N + m1 2%N * d 1%N * m2 2%N;
      m1 1%N * d 0%N * m2 0%N + m1 3%N * d 1%N * m2 2%N;
      m1 0%N * d 0%N * m2 1%N + m1 2%N * d 1%N * m2 3%N;
      m1 1%N * d 0%N * m2 1%N + m1 3%N * d 1%N * m2 3%N].
Definition matmul_mat_diag_matT_3D (m1 d m2 : vec) : seq R :=
  [:: m1 0%N * d 0%N * m2 0%N + m1 3%N * d 1%N * m2 3%N + m1 6%N * d 2%N * m2 6%N;
      m1 1%N * d 0%N * m2 0%N + m1 4%N * d 1%N * m2 3%N + m1 7%N * d 2%N * m2 6%N;
      m1 2%N * d 0%N * m2 0%N + m1 5%N * d 1%N * m2 3%N + m1 8%N * d 2%N * m2 6%N;
      m1 0%N * d 0%N * m2 1%N + m1 3%N * d 1%N * m2 4%N + m1 6%N * d 2%N * m2 7%N;
      m1 1%N * d 0%N * m2 1%N + m1 4%N * d 1%N * m2 4%N + m1 7%N * d 2%N * m2 7%N;
      m1 2%N * d 0%N * m2 1%N + m1 5%N * d 1%N * m2 4%N + m1 8%N * d 2%N * m2 7%N;
      m1 0%N * d 0%N * m2 2%N + m1 3%N * d 1%N * m2 5%N + m1 6%N * d 2%N * m2 8%N;
      m1 1%N * d 0%N * m2 2%N + m1 4%N * d 1%N * m2 5%N + m1 7%N * d 2%N * m2 8%N;
      m1 2%N * d 0%N * m2 2%N + m1 5%N * d 1%N * m2 5%N + m1 8%N * d 2%N * m2 8%N].

(* MatrixUtils.h 56-62: vec_crossMul_vec_3D *)
Definition vec_crossMul_vec_3D (a b : vec) : vec :=
  vset (vset (vset vnew 0 (a 1%N * b 2%N + a 2%N * b 1%N))
             1 (a 2%N * b 0%N + a 0%N * b 2%N))
       2 (a 0%N * b 1%N + a 1%N * b 0%N).

(* Utility.h 27-37: math::cross on arrays *)
Definition math_cross (a b : vec) : vec :=
  vset (vset (vset vnew 0 (a 1%N * b 2%N - b 1%N * a 2%N))
             1 (b 0%N * a 2%N - a 0%N * b 2%N))
       2 (a 0%N * b 1%N - b 0%N * a 1%N).

(* MatrixUtils.h 64-69: matrixCofactor2d *)
Definition matrixCofactor2d (x : vec) : seq R := [:: x 3%N; - x 2%N; - x 1%N; x 0%N].
(* MatrixUtils.h 71-83: matrixCofactor3d *)
Definition matrixCofactor3d (x : vec) : seq R :=
  [:: x 4%N * x 8%N - x 7%N * x 5%N; x 7%N * x 2%N - x 1%N * x 8%N; x 1%N * x 5%N - x 4%N * x 2%N;
      x 6%N * x 5%N - x 3%N * x 8%N; x 0%N * x 8%N - x 6%N * x 2%N; x 3%N * x 2%N - x 0%N * x 5%N;
      x 3%N * x 7%N - x 6%N * x 4%N; x 6%N * x 1%N - x 0%N * x 7%N; x 0%N * x 4%N - x 3%N * x 1%N].

(* MatrixUtils.h 104-111: matrixDeterminant3d, matrixDeterminant2d *)
Definition matrixDeterminant3d (x : vec) : R :=
  x 0%N * (x 4%N * x 8%N - x 7%N * x 5%N) + x 3%N * (x 7%N * x 2%N - x 1%N * x 8%N)
  + x 6%N * (x 1%N * x 5%N - x 4%N * x 2%N).
Definition matrixDeterminant2d (x : vec) : R := x 0%N * x 3%N - x 1%N * x 2%N.

(* MatrixUtils.h 113-130: matrixTranspose3d, matrixTranspose2d *)
Definition matrixTranspose3d (x : vec) : seq R :=
  [:: x 0%N; x 3%N; x 6%N; x 1%N; x 4%N; x 7%N; x 2%N; x 5%N; x 8%N].
Definition matrixTranspose2d (x : vec) : seq R := [:: x 0%N; x 2%N; x 1%N; x 3%N].

(* MatrixUtils.h 132-134: matrixTrace3d, matrixTrace2d *)
Definition matrixTrace3d (x : vec) : R := x 0%N + x 4%N + x 8%N.
Definition matrixTrace2d (x : vec) : R := x 0%N + x 3%N.

(* MatrixUtils.h 136-153: matrixMatrixMultiplication3d/2d *)
Definition matrixMatrixMultiplication3d (a b : vec) : seq R :=
  [:: a 0%N * b 0%N + a 3%N * b 1%N + a 6%N * b 2%N;
      a 1%N * b 0%N + a 4%N * b 1%N + a 7%N * b 2%N;
      a 2%N * b 0%N + a 5%N * b 1%N + a 8%N * b 2%N;
      a 0%N * b 3%N + a 3%N * b 4%N + a 6%N * b 5%N;
      a 1%N * b 3%N + a 4%N * b 4%N + a 7%N * b 5%N;
      a 2%N * b 3%N + a 5%N * b 4%N + a 8%N * b 5%N;
      a 0%N * b 6%N + a 3%N * b 7%N + a 6%N * b 8%N;
      a 1%N * b 6%N + a 4%N * b 7%N + a 7%N * b 8%N;
      a 2%N * b 6%N + a 5%N * b 7%N + a 8%N * b 8%N].
Definition matrixMatrixMultiplication2d (a b : vec) : seq R :=
  [:: a 0%N * b 0%N + a 2%N * b 1%N; a 1%N * b 0%N + a 3%N * b 1%N;
      a 0%N * b 2%N + a 2%N * b 3%N; a 1%N * b 2%N + a 3%N * b 3%N].

(* MatrixUtils.h 176-195: matrixTransposeMatrixMultiplication3d/2d *)
Definition matrixTransposeMatrixMultiplication3d (a b : vec) : seq R :=
  [:: a 0%N * b 0%N + a 1%N * b 1%N + a 2%N * b 2%N;
      a 3%N * b 0%N + a 4%N * b 1%N + a 5%N * b 2%N;
      a 6%N * b 0%N + a 7%N * b 1%N + a 8%N * b 2%N;
      a 0%N * b 3%N + a 1%N * b 4%N + a 2%N * b 5%N;
      a 3%N * b 3%N + a 4%N * b 4%N + a 5%N * b 5%N;
      a 6%N * b 3%N + a 7%N * b 4%N + a 8%N * b 5%N;
      a 0%N * b 6%N + a 1%N * b 7%N + a 2%N * b 8%N;
      a 3%N * b 6%N + a 4%N * b 7%N + a 5%N * b 8%N;
      a 6%N * b 6%N + a 7%N * b 7%N + a 8%N * b 8%N].
Definition matrixTransposeMatrixMultiplication2d (a b : vec) : seq R :=
  [:: a 0%N * b 0%N + a 1%N * b 1%N; a 2%N * b 0%N + a 3%N * b 1%N;
      a 0%N * b 2%N + a 1%N * b 3%N; a 2%N * b 2%N + a 3%N * b 3%N].

(* MatrixUtils.h 223-242: matrixMatrixTransposeMultiplication3d/2d *)
Definition matrixMatrixTransposeMultiplication3d (a b : vec) : seq R :=
  [:: a 0%N * b 0%N + a 3%N * b 3%N + a 6%N * b 6%N;
      a 1%N * b 0%N + a 4%N * b 3%N + a 7%N * b 6%N;
      a 2%N * b 0%N + a 5%N * b 3%N + a 8%N * b 6%N;
      a 0%N * b 1%N + a 3%N * b 4%N + a 6%N * b 7%N;
      a 1%N * b 1%N + a 4%N * b 4%N + a 7%N * b 7%N;
      a 2%N * b 1%N + a 5%N * b 4%N + a 8%N * b 7%N;
      a 0%N * b 2%N + a 3%N * b 5%N + a 6%N * b 8%N;
      a 1%N * b 2%N + a 4%N * b 5%N + a 7%N * b 8%N;
      a 2%N * b 2%N + a 5%N * b 5%N + a 8%N * b 8%N].
Definition matrixMatrixTransposeMultiplication2d (a b : vec) : seq R :=
  [:: a 0%N * b 0%N + a 2%N * b 2%N; a 1%N * b 0%N + a 3%N * b 2%N;
      a 0%N * b 1%N + a 2%N * b 3%N; a 1%N * b 1%N + a 3%N * b 3%N].

(* MatrixUtils.h 197-221: matrixVectorMultiplication3d/2d, vectorMatrixMultiplication3d/2d *)
Definition matrixVectorMultiplication3d (x v : vec) : seq R :=
  [:: x 0%N * v 0%N + x 3%N * v 1%N + x 6%N * v 2%N;
      x 1%N * v 0%N + x 4%N * v 1%N + x 7%N * v 2%N;
      x 2%N * v 0%N + x 5%N * v 1%N + x 8%N * v 2%N].
Definition matrixVectorMultiplication2d (x v : vec) : seq R :=
  [:: x 0%N * v 0%N + x 2%N * v 1%N; x 1%N * v 0%N + x 3%N * v 1%N].
Definition vectorMatrixMultiplication3d (v x : vec) : seq R :=
  [:: x 0%N * v 0%N + x 1%N * v 1%N + x 2%N * v 2%N;
      x 3%N * v 0%N + x 4%N * v 1%N + x 5%N * v 2%N;
      x 6%N * v 0%N + x 7%N * v 1%N + x 8%N * v 2%N].
Definition vectorMatrixMultiplication2d (v x : vec) : seq R :=
  [:: x 0%N * v 0%N + x 1%N * v 1%N; x 2%N * v 0%N + x 3%N * v 1%N].
End Ring.

Section Near.
Variable R : comRingType.
(* VecInterface.hpp 976-991: parallel in 3D.  [dim] is the number of indices
   (1), not the extent.  near_zero is taken exactly (== 0). *)
Definition parallel3 (a b : nat -> R) : bool :=
  let c := cross3 a b in
  has (fun d => c d == 0) (iota 0 1).
End Near.

Section Field.
Variable F : fieldType.
Notation vec := (nat -> F).
Notation mat := (nat -> nat -> F).

(* Vec.h 580-589: inverse, 1 x 1 *)
Definition inverse_1 (A : mat) : mat := mset (@mnew F) 0 0 (1 / A 0%N 0%N).

(* Vec.h 590-603: inverse, 2 x 2 *)
Definition inverse_2 (A : mat) : mat :=
  let invdet := 1 / determinant 2 A in
  let ret := mset (@mnew F) 0 0 (A 1%N 1%N * invdet) in
  let ret := mset ret 1 0 (- A 1%N 0%N * invdet) in
  let ret := mset ret 0 1 (- A 0%N 1%N * invdet) in
  mset ret 1 1 (A 0%N 0%N * invdet).

(* Vec.h 604-628: inverse, 3 x 3 *)
Definition inverse_3 (A : mat) : mat :=
  let ret := mset (@mnew F) 0 0 (cofactor3 0 0 A) in
  let ret := mset ret 0 1 (cofactor3 1 0 A) in
  let ret := mset ret 0 2 (cofactor3 2 0 A) in
  let invdet := 1 / (ret 0%N 0%N * A 0%N 0%N + ret 0%N 1%N * A 1%N 0%N + ret 0%N 2%N * A 2%N 0%N) in
  let c01 := cofactor3 0 1 A * invdet in
  let c11 := cofactor3 1 1 A * invdet in
  let c02 := cofactor3 0 2 A * invdet in
  let ret := mset ret 1 2 (cofactor3 2 1 A * invdet) in
  let ret := mset ret 2 1 (cofactor3 1 2 A * invdet) in
  let ret := mset ret 2 2 (cofactor3 2 2 A * invdet) in
  let ret := mset ret 1 0 c01 in
  let ret := mset ret 1 1 c11 in
  let ret := mset ret 2 0 c02 in
  let ret := mset ret 0 0 (ret 0%N 0%N * invdet) in
  let ret := mset ret 0 1 (ret 0%N 1%N * invdet) in
  mset ret 0 2 (ret 0%N 2%N * invdet).

(* Vec.h 629-658: inverse, 4 x 4; ret / s divides every entry *)
Definition inverse_4 (A : mat) : mat :=
  let ret := mset (@mnew F) 0 0 (cofactor4 0 0 A) in
  let ret := mset ret 1 0 (- cofactor4 0 1 A) in
  let ret := mset ret 2 0 (cofactor4 0 2 A) in
  let ret := mset ret 3 0 (- cofactor4 0 3 A) in
  let ret := mset ret 0 2 (cofactor4 2 0 A) in
  let ret := mset ret 1 2 (- cofactor4 2 1 A) in
  let ret := mset ret 2 2 (cofactor4 2 2 A) in
  let ret := mset ret 3 2 (- cofactor4 2 3 A) in
  let ret := mset ret 0 1 (- cofactor4 1 0 A) in
  let ret := mset ret 1 1 (cofactor4 1 1 A) in
  let ret := mset ret 2 1 (- cofactor4 1 2 A) in
  let ret := mset ret 3 1 (cofactor4 1 3 A) in
  let ret := mset ret 0 3 (- cofactor4 3 0 A) in
  let ret := mset ret 1 3 (cofactor4 3 1 A) in
  let ret := mset ret 2 3 (- cofactor4 3 2 A) in
  let ret := mset ret 3 3 (cofactor4 3 3 A) in
  let s := A 0%N 0%N * ret 0%N 0%N + A 1%N 0%N * ret 0%N 1%N + A 2%N 0%N * ret 0%N 2%N
           + A 3%N 0%N * ret 0%N 3%N in
  fun i j => ret i j / s.

(* inverse exists for the sizes 1 .. 4 only *)
Definition inverse (n : nat) (A : mat) : option mat :=
  match n with
  | 1 => Some (inverse_1 A)
  | 2 => Some (inverse_2 A)
  | 3 => Some (inverse_3 A)
  | 4 => Some (inverse_4 A)
  | _ => None
  end.
End Field.
