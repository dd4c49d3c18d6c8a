(* Model of math/DihedralAngle.hpp 15-178: the dihedral angle of two triangles sharing an
   edge, its gradient and its Hessian.
   Simplifications: exact real arithmetic; quotients by zero are Coq's total ones. *)
From Coq Require Import Reals List.
From Verif Require Import FricModel.
Import ListNotations.
Local Open Scope R_scope.

(* DihedralAngle.hpp 15-28 *)
Definition dihedral_angle (v2 v0 v1 v3 : v3) : R :=
  let n1 := cross (vsub v0 v2) (vsub v1 v2) in
  let n2 := cross (vsub v1 v3) (vsub v0 v3) in
  let DA := acos (Rmax (-1) (Rmin 1 (dot n1 n2 / sqrt (norm_sqr n1 * norm_sqr n2)))) in
  if Rlt_dec (dot (cross n2 n1) (vsub v0 v1)) 0 then - DA else DA.

(* 36-69: the derivatives with respect to v2, v0, v1, v3 *)
Definition dihedral_angle_gradient (v2 v0 v1 v3 : v3) : list FricModel.v3 :=
  let e0 := vsub v1 v0 in let e1 := vsub v2 v0 in let e2 := vsub v3 v0 in
  let e3 := vsub v2 v1 in let e4 := vsub v3 v1 in
  let n1 := cross e0 e1 in let n2 := cross e2 e0 in
  let n1SqNorm := norm_sqr n1 in let n2SqNorm := norm_sqr n2 in
  let e0norm := norm e0 in
  let da_dv2 := scal (- e0norm / n1SqNorm) n1 in
  let da_dv0 := vsub (scal (- dot e0 e3 / (e0norm * n1SqNorm)) n1) (scal (dot e0 e4 / (e0norm * n2SqNorm)) n2) in
  let da_dv1 := vadd (scal (dot e0 e1 / (e0norm * n1SqNorm)) n1) (scal (dot e0 e2 / (e0norm * n2SqNorm)) n2) in
  let da_dv3 := scal (- e0norm / n2SqNorm) n2 in
  [da_dv2; da_dv0; da_dv1; da_dv3].

(* 3x3 matrices by their rows; VecInterface.hpp 432-437 (negation), 446-454 (transpose), 672-696 (scalars), 726-739 (sums and
   differences); Vec.h 457-467 (dyadic_prod) *)
Record m3 := M3 { r0 : v3; r1 : v3; r2 : v3 }.
Definition dyadic_prod (a b : v3) : m3 := M3 (scal (vx a) b) (scal (vy a) b) (scal (vz a) b).
Definition transpose (m : m3) : m3 :=
  M3 (V3 (vx (r0 m)) (vx (r1 m)) (vx (r2 m))) (V3 (vy (r0 m)) (vy (r1 m)) (vy (r2 m))) (V3 (vz (r0 m)) (vz (r1 m)) (vz (r2 m))).
Definition madd (a b : m3) : m3 := M3 (vadd (r0 a) (r0 b)) (vadd (r1 a) (r1 b)) (vadd (r2 a) (r2 b)).
Definition msub (a b : m3) : m3 := M3 (vsub (r0 a) (r0 b)) (vsub (r1 a) (r1 b)) (vsub (r2 a) (r2 b)).
Definition mneg (a : m3) : m3 := M3 (scal (-1) (r0 a)) (scal (-1) (r1 a)) (scal (-1) (r2 a)).
Definition mdiv (a : m3) (k : R) : m3 := M3 (scal (/ k) (r0 a)) (scal (/ k) (r1 a)) (scal (/ k) (r2 a)).
Definition mzero : m3 := let z := V3 0 0 0 in M3 z z z.
Definition vdiv (a : v3) (k : R) : v3 := scal (/ k) a.
(* 95-100 *)
Definition compute_mHat (xp xe0 xe1 : v3) : v3 :=
  let e := vsub xe1 xe0 in
  let mHat := vsub (vadd xe0 (scal (dot (vsub xp xe0) e / norm_sqr e) e)) xp in
  vdiv mHat (norm mHat).
(* 77-178: the 4 x 4 blocks, in the order v2, v0, v1, v3; blocks that are not assigned are zero *)
Definition dihedral_angle_hessian (v2 v0 v1 v3 : v3) : list (list m3) :=
  let e0 := vsub v1 v0 in let e1 := vsub v2 v0 in let e2 := vsub v3 v0 in
  let e3 := vsub v2 v1 in let e4 := vsub v3 v1 in
  let n1 := cross e0 e1 in let n2 := cross e2 e0 in
  let n1norm := norm n1 in let n2norm := norm n2 in
  let mHat1 := compute_mHat v1 v0 v2 in
  let mHat2 := compute_mHat v1 v0 v3 in
  let mHat3 := compute_mHat v0 v1 v2 in
  let mHat4 := compute_mHat v0 v1 v3 in
  let mHat01 := compute_mHat v2 v0 v1 in
  let mHat02 := compute_mHat v3 v0 v1 in
  let cosalpha1 := dot e0 e1 / (norm e0 * norm e1) in
  let cosalpha2 := dot e0 e2 / (norm e0 * norm e2) in
  let cosalpha3 := - dot e0 e3 / (norm e0 * norm e3) in
  let cosalpha4 := - dot e0 e4 / (norm e0 * norm e4) in
  let h1 := n1norm / norm e1 in
  let h2 := n2norm / norm e2 in
  let h3 := n1norm / norm e3 in
  let h4 := n2norm / norm e4 in
  let h01 := n1norm / norm e0 in
  let h02 := n2norm / norm e0 in
  let N1_01 := dyadic_prod n1 (vdiv mHat01 (h01 * h01 * n1norm)) in
  let N2_02 := dyadic_prod n2 (vdiv mHat02 (h02 * h02 * n2norm)) in
  let N1_3 := dyadic_prod n1 (vdiv mHat3 (h01 * h3 * n1norm)) in
  let N1_1 := dyadic_prod n1 (vdiv mHat1 (h01 * h1 * n1norm)) in
  let N2_4 := dyadic_prod n2 (vdiv mHat4 (h02 * h4 * n2norm)) in
  let N2_2 := dyadic_prod n2 (vdiv mHat2 (h02 * h2 * n2norm)) in
  let M3_01_1 := dyadic_prod (scal (cosalpha3 / (h3 * h01 * n1norm)) mHat01) n1 in
  let M1_01_1 := dyadic_prod (scal (cosalpha1 / (h1 * h01 * n1norm)) mHat01) n1 in
  let M1_1_1 := dyadic_prod (scal (cosalpha1 / (h1 * h1 * n1norm)) mHat1) n1 in
  let M3_3_1 := dyadic_prod (scal (cosalpha3 / (h3 * h3 * n1norm)) mHat3) n1 in
  let M3_1_1 := dyadic_prod (scal (cosalpha3 / (h3 * h1 * n1norm)) mHat1) n1 in
  let M1_3_1 := dyadic_prod (scal (cosalpha1 / (h1 * h3 * n1norm)) mHat3) n1 in
  let M4_02_2 := dyadic_prod (scal (cosalpha4 / (h4 * h02 * n2norm)) mHat02) n2 in
  let M2_02_2 := dyadic_prod (scal (cosalpha2 / (h2 * h02 * n2norm)) mHat02) n2 in
  let M4_4_2 := dyadic_prod (scal (cosalpha4 / (h4 * h4 * n2norm)) mHat4) n2 in
  let M2_4_2 := dyadic_prod (scal (cosalpha2 / (h2 * h4 * n2norm)) mHat4) n2 in
  let M4_2_2 := dyadic_prod (scal (cosalpha4 / (h4 * h2 * n2norm)) mHat2) n2 in
  let M2_2_2 := dyadic_prod (scal (cosalpha2 / (h2 * h2 * n2norm)) mHat2) n2 in
  let B1 := mdiv (dyadic_prod n1 mHat01) (norm e0 * norm e0 * n1norm) in
  let B2 := mdiv (dyadic_prod n2 mHat02) (norm e0 * norm e0 * n2norm) in
  let H00 := mneg (madd N1_01 (transpose N1_01)) in
  let H10 := msub M3_01_1 N1_3 in
  let H20 := msub M1_01_1 N1_1 in
  let H11 := msub (madd (madd (msub (madd M3_3_1 (transpose M3_3_1)) B1) M4_4_2) (transpose M4_4_2)) B2 in
  let H12 := madd (madd (madd (madd (madd M3_1_1 (transpose M1_3_1)) B1) M4_2_2) (transpose M2_4_2)) B2 in
  let H13 := msub M4_02_2 N2_4 in
  let H22 := msub (madd (madd (msub (madd M1_1_1 (transpose M1_1_1)) B1) M2_2_2) (transpose M2_2_2)) B2 in
  let H23 := msub M2_02_2 N2_2 in
  let H33 := mneg (madd N2_02 (transpose N2_02)) in
  [[H00; transpose H10; transpose H20; mzero];
   [H10; H11; H12; H13];
   [H20; transpose H12; H22; H23];
   [mzero; transpose H13; transpose H23; H33]].
