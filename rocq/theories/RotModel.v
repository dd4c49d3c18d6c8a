(* Rotations and homogeneous transforms.
   math/Rotation.hpp, math/matrix/Transform.hpp, VecInterface::orthogonal.

   Element types are abstract real closed fields: rounding is not modelled, and
   sqrtNewtonRaphson is replaced by the exact square root (its error is the
   subject of C63).  An angle is represented by its cosine and sine, that is
   modulo a full turn; conversions between radian and degree are left out. *)
From mathcomp Require Import all_ssreflect all_algebra.
From Verif Require Import MatModel.
Import GRing.Theory Num.Theory Order.Theory.
Set Implicit Arguments.
Unset Strict Implicit.
Unset Printing Implicit Defensive.
Local Open Scope ring_scope.

(** an angle as passed to Rotation.hpp 37-59, by cosine and sine *)
Record angle (T : Type) := Ang { cosA : T; sinA : T }.

Section Rot.
Variable T : rcfType.
Notation vec := (nat -> T).
Notation mat := (nat -> nat -> T).
Notation angle := (angle T).

(* VecInterface.hpp 487-494, 506-512: length, normalized *)
Definition length (n : nat) (a : vec) : T := Num.sqrt (l2NormSqr n a).
Definition normalized (n : nat) (a : vec) : vec :=
  let len := length n a in loop n (fun i r => vset r i (a i / len)) (@vnew T).

(* VecInterface.hpp 554-563: orthogonal in 2D *)
Definition orthogonal2 (a : vec) : vec :=
  normalized 2 (vset (vset (@vnew T) 0 (- a 1%N)) 1 (a 0%N)).
(* VecInterface.hpp 567-589: orthogonal in 3D *)
Definition orthogonal3 (a : vec) : vec :=
  let x := `|a 0%N| in
  let y := `|a 1%N| in
  let z := `|a 2%N| in
  let r :=
    if x < y then (if x < z then vset (@vnew T) 0 1 else vset (@vnew T) 2 1)
    else (if y < z then vset (@vnew T) 1 1 else vset (@vnew T) 2 1) in
  cross3 a r.

(* ZpcMathUtils.hpp 290-294: near_zero, eps = 128 times the epsilon of T *)
Definition near_zero (eps v : T) : bool := (- eps <= v) && (v <= eps).

(* the functions of the C library on the representation of angles *)
Definition ang0 : angle := Ang 1 0.
Definition g_pi : angle := Ang (-1) 0.
Definition g_half_pi : angle := Ang 0 1.
Definition ang_opp (a : angle) : angle := Ang (cosA a) (- sinA a).
Definition acos (c : T) : angle := Ang c (Num.sqrt (1 - c * c)).
Definition asin (s : T) : angle := Ang (Num.sqrt (1 - s * s)) s.
Definition atan2 (y x : T) : angle :=
  let r := Num.sqrt (x * x + y * y) in
  if r == 0 then ang0 else Ang (x / r) (y / r).

(* a 3 x 3 matrix from its entries, row by row *)
Definition mat3 (a b c d e f g h i : T) : mat :=
  let m := mset (mset (mset (@mnew T) 0 0 a) 0 1 b) 0 2 c in
  let m := mset (mset (mset m 1 0 d) 1 1 e) 1 2 f in
  mset (mset (mset m 2 0 g) 2 1 h) 2 2 i.

(* Rotation.hpp 37-45: rotation by theta in 2D; 194-201 is the same with the
   first entry of q *)
Definition rot_angle (theta : angle) : mat :=
  let m := mset (@mnew T) 0 0 (cosA theta) in
  let m := mset m 0 1 (- sinA theta) in
  let m := mset m 1 0 (sinA theta) in
  mset m 1 1 (cosA theta).

(* Rotation.hpp 47-59: rotation about an axis *)
Definition rot_axis (p_ : vec) (alpha : angle) : mat :=
  let p := normalized 3 p_ in
  let P := mat3 0 (p 2%N) (- p 1%N) (- p 2%N) 0 (p 0%N) (p 1%N) (- p 0%N) 0 in
  let s := sinA alpha in
  let c := cosA alpha in
  fun i j => c * (i == j)%:R + (1 - c) * dyadic_prod 3 3 p p i j - s * P i j.

(* Rotation.hpp 60-89: extractAxisRotation *)
Definition extract_axis (eps : T) (m : mat) : vec * angle :=
  let c := 1 / 2%:R * (trace 3 m - 1) in
  let alpha := acos c in
  if near_zero eps (c - 1) then (vset (@vnew T) 1 1, ang0)
  else
    let p :=
      if near_zero eps (c + 1) then
        let p := vset (@vnew T) 0 (Num.sqrt ((m 0%N 0%N + 1) * (1 / 2%:R))) in
        if near_zero eps (p 0%N) then
          let p := vset p 1 (Num.sqrt ((m 1%N 1%N + 1) * (1 / 2%:R))) in
          let p := vset p 2 (Num.sqrt ((m 2%N 2%N + 1) * (1 / 2%:R))) in
          if m 1%N 2%N < 0 then vset p 2 (- p 2%N) else p
        else
          let p := vset p 1 (m 0%N 1%N * (1 / 2%:R) / p 0%N) in
          vset p 2 (m 0%N 2%N * (1 / 2%:R) / p 0%N)
      else
        let s := Num.sqrt (1 - c * c) in
        let p := vset (@vnew T) 0 ((m 2%N 1%N - m 1%N 2%N) * (1 / 2%:R) / s) in
        let p := vset p 1 ((m 0%N 2%N - m 2%N 0%N) * (1 / 2%:R) / s) in
        vset p 2 ((m 1%N 0%N - m 0%N 1%N) * (1 / 2%:R) / s) in
    (p, alpha).

(* Rotation.hpp 91-142: Euler angles, the conventions roe and ypr *)
Definition rot_roe (psi theta phi : angle) : mat :=
  let cc := cosA psi * cosA theta in
  let sc := sinA psi * cosA theta in
  mat3 (cc * cosA phi - sinA psi * sinA phi)
       (- cc * sinA phi - sinA psi * cosA phi)
       (cosA psi * sinA theta)
       (sc * cosA phi + cosA psi * sinA phi)
       (- sc * sinA phi + cosA psi * cosA phi)
       (sinA psi * sinA theta)
       (- sinA theta * cosA phi)
       (sinA theta * sinA phi)
       (cosA theta).
Definition rot_ypr (psi theta phi : angle) : mat :=
  let ss := sinA phi * sinA theta in
  let cs := cosA phi * sinA theta in
  mat3 (cosA theta * cosA psi)
       (cosA theta * sinA psi)
       (- sinA theta)
       (ss * cosA psi - cosA phi * sinA psi)
       (ss * sinA psi + cosA phi * cosA psi)
       (sinA phi * cosA theta)
       (cs * cosA psi + sinA phi * sinA psi)
       (cs * sinA psi - sinA phi * cosA psi)
       (cosA phi * cosA theta).

(* Rotation.hpp 144-187: extractAngles *)
Definition extract_roe (eps : T) (m : mat) : angle * angle * angle :=
  let c := m 2%N 2%N in
  if near_zero eps (c - 1) then (atan2 (m 1%N 0%N) (m 0%N 0%N), ang0, ang0)
  else if near_zero eps (c + 1) then (atan2 (- m 1%N 0%N) (- m 0%N 0%N), g_pi, ang0)
  else (atan2 (m 1%N 2%N) (m 0%N 2%N), acos c, atan2 (m 2%N 1%N) (- m 2%N 0%N)).
Definition extract_ypr (eps : T) (m : mat) : angle * angle * angle :=
  let s := - m 0%N 2%N in
  if near_zero eps (s - 1) then (atan2 (m 2%N 1%N) (m 2%N 0%N), g_half_pi, ang0)
  else if near_zero eps (s + 1) then (atan2 (- m 2%N 1%N) (- m 2%N 0%N), ang_opp g_half_pi, ang0)
  else (atan2 (m 0%N 1%N) (m 0%N 0%N), asin s, atan2 (m 1%N 2%N) (m 2%N 2%N)).

(* Rotation.hpp 308-343: quaternion2matrix; (x, y, z, w) are the entries 0 .. 3 *)
Definition quaternion2matrix (q : vec) : mat :=
  let tx := 2%:R * q 0%N in
  let ty := 2%:R * q 1%N in
  let tz := 2%:R * q 2%N in
  let twx := tx * q 3%N in
  let twy := ty * q 3%N in
  let twz := tz * q 3%N in
  let txx := tx * q 0%N in
  let txy := ty * q 0%N in
  let txz := tz * q 0%N in
  let tyy := ty * q 1%N in
  let tyz := tz * q 1%N in
  let tzz := tz * q 2%N in
  mat3 (1 - (tyy + tzz)) (txy - twz) (txz + twy)
       (txy + twz) (1 - (txx + tzz)) (tyz - twx)
       (txz - twy) (tyz + twx) (1 - (txx + tyy)).

(* Rotation.hpp 244-268: quaternionMultiply.  The accessors x(), y(), z(), w()
   are not const members (VecInterface.hpp 240-258), so the call on const
   references does not compile when instantiated; modelled as written. *)
Definition qmul_ (w1 x1 y1 z1 w2 x2 y2 z2 : T) : vec :=
  let res := vset (@vnew T) 3 (w1 * w2 - x1 * x2 - y1 * y2 - z1 * z2) in
  let res := vset res 0 (w1 * x2 + x1 * w2 + y1 * z2 - z1 * y2) in
  let res := vset res 1 (w1 * y2 - x1 * z2 + y1 * w2 + z1 * x2) in
  vset res 2 (w1 * z2 + x1 * y2 - y1 * x2 + z1 * w2).
Definition quaternionMultiply (q1 q2 : vec) : vec :=
  qmul_ (q1 3%N) (q1 0%N) (q1 1%N) (q1 2%N) (q2 3%N) (q2 0%N) (q2 1%N) (q2 2%N).
(* Rotation.hpp 270-294: quaternionConjugateMultiply *)
Definition quaternionConjugateMultiply (q1 q2 : vec) : vec :=
  qmul_ (q1 3%N) (- q1 0%N) (- q1 1%N) (- q1 2%N) (q2 3%N) (q2 0%N) (q2 1%N) (q2 2%N).

(* Rotation.hpp 207-242: the rotation taking the direction of a to that of b *)
Definition rot_between2 (a b : vec) : mat :=
  let aa := normalized 2 a in
  let bb := normalized 2 b in
  let m := mset (@mnew T) 0 0 (aa 0%N * bb 0%N + aa 1%N * bb 1%N) in
  let m := mset m 0 1 (- (aa 0%N * bb 1%N - bb 0%N * aa 1%N)) in
  let m := mset m 1 0 (aa 0%N * bb 1%N - bb 0%N * aa 1%N) in
  mset m 1 1 (aa 0%N * bb 0%N + aa 1%N * bb 1%N).
Definition rot_between3 (a b : vec) : mat :=
  let k_cos_theta := dot 3 a b in
  let k := Num.sqrt (l2NormSqr 3 a * l2NormSqr 3 b) in
  let q := @vnew T in
  let q :=
    if k_cos_theta / k == -1 then
      let q := vset q 3 0 in
      let c := normalized 3 (orthogonal3 a) in
      vset (vset (vset q 0 (c 0%N)) 1 (c 1%N)) 2 (c 2%N)
    else
      let q := vset q 3 (k_cos_theta + k) in
      let c := cross3 a b in
      normalized 4 (vset (vset (vset q 0 (c 0%N)) 1 (c 1%N)) 2 (c 2%N)) in
  quaternion2matrix q.

(* Rotation.hpp 346-376: AngularVelocity::cross in 2D *)
Definition omega_cross2 (omega : T) (x : vec) : vec :=
  vset (vset (@vnew T) 0 (- omega * x 1%N)) 1 (omega * x 0%N).
End Rot.

(* Transform.hpp; a Transform is a (dim + 1) x (dim + 1) matrix *)
Section Transform.
Variable R : comRingType.
Notation vec := (nat -> R).
Notation mat := (nat -> nat -> R).

(** mat_type::identity() (Transform.hpp 20, 41, 95) *)
Definition identity : mat := fun i j => (i == j)%:R.

(* Transform.hpp 18-22: setToTranslation *)
Definition setToTranslation (dim : nat) (v : vec) : mat :=
  loop dim (fun i m => mset m dim i (v i)) identity.
(* Transform.hpp 24-36: preTranslate, postTranslate *)
Definition preTranslate (dim : nat) (m : mat) (v : vec) : mat :=
  matmul dim.+1 dim.+1 dim.+1 (setToTranslation dim v) m.
Definition postTranslate (dim : nat) (m : mat) (v : vec) : mat :=
  matmul dim.+1 dim.+1 dim.+1 m (setToTranslation dim v).
(* Transform.hpp 38-43: setToScale *)
Definition setToScale (dim : nat) (v : vec) : mat :=
  loop dim (fun d m => mset m d d (v d)) identity.
(* Transform.hpp 45-49: preScale *)
Definition preScale (dim : nat) (m : mat) (v : vec) : mat :=
  loop dim (fun i m => loop dim.+1 (fun j m => mset m i j (m i j * v i)) m) m.
(* Transform.hpp 51-55: postScale *)
Definition postScale (dim : nat) (m : mat) (v : vec) : mat :=
  loop dim.+1 (fun i m => loop dim (fun j m => mset m i j (m i j * v j)) m) m.
(* Transform.hpp 57-64: setToRotation *)
Definition setToRotation (dim : nat) (r : mat) : mat :=
  let m := loop dim (fun i m => loop dim (fun j m => mset m i j (r j i)) m) (@mnew R) in
  mset m dim dim 1.
(* Transform.hpp 66-78: preRotate, postRotate *)
Definition preRotate (dim : nat) (m r : mat) : mat :=
  matmul dim.+1 dim.+1 dim.+1 (setToRotation dim r) m.
Definition postRotate (dim : nat) (m r : mat) : mat :=
  matmul dim.+1 dim.+1 dim.+1 m (setToRotation dim r).

(* Transform.hpp 81-115: decompose_transform.  [polar] is polar_decomposition
   (QRSVD.hpp); the copy of the linear part is an intermediate. *)
Section Decompose.
Variable polar : mat -> mat * mat.
Definition decompose_transform (dim : nat) (m : mat) (applyOnColumn : bool) : mat * mat * mat :=
  let H := if applyOnColumn then m else transpose dim.+1 dim.+1 m in
  let TH := loop dim (fun i (s : mat * mat) =>
              (mset s.1 i dim (s.2 i dim), mset s.2 i dim 0)) (identity, H) in
  let T := TH.1 in
  let H := TH.2 in
  let L := loop dim (fun i l => loop dim (fun j l => mset l i j (H i j)) l) (@mnew R) in
  let RS_ := polar L in
  let RS := loop dim (fun i s => loop dim (fun j (s : mat * mat) =>
              (mset s.1 i j (RS_.1 i j), mset s.2 i j (RS_.2 i j))) s) (@mnew R, @mnew R) in
  let Rm := mset RS.1 dim dim 1 in
  let S := mset RS.2 dim dim 1 in
  if applyOnColumn then (T, Rm, S)
  else (transpose dim.+1 dim.+1 S, transpose dim.+1 dim.+1 Rm, transpose dim.+1 dim.+1 T).
End Decompose.
End Transform.
