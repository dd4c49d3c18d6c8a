(* Rotations, quaternions and affine maps, independently of the code. *)
From mathcomp Require Import all_ssreflect all_algebra.
From Verif Require Import MatSpec.
Set Implicit Arguments.
Unset Strict Implicit.
Unset Printing Implicit Defensive.
Import GRing.Theory.
Local Open Scope ring_scope.

(* proper rotations: orthogonal with determinant 1 *)
Definition is_rotation (R : comRingType) (n : nat) (M : 'M[R]_n) : Prop :=
  M *m M^T = 1%:M /\ \det M = 1.

Section Elementary.
Variable R : comRingType.
(* a 3 x 3 matrix by rows *)
Definition rows3 (a b c : R * R * R) : 'M[R]_3 :=
  \matrix_(i < 3, j < 3)
    let r := nth a [:: a; b; c] i in nth r.1.1 [:: r.1.1; r.1.2; r.2] j.
(* rotations about the axes by an angle with cosine c and sine s *)
Definition Rx (c s : R) := rows3 (1, 0, 0) (0, c, - s) (0, s, c).
Definition Ry (c s : R) := rows3 (c, 0, s) (0, 1, 0) (- s, 0, c).
Definition Rz (c s : R) := rows3 (c, - s, 0) (s, c, 0) (0, 0, 1).
(* c is the cosine and s the sine of some angle *)
Definition is_angle (c s : R) : Prop := c ^+ 2 + s ^+ 2 = 1.
End Elementary.

(* quaternions: real part and vector part; i j = k etc. *)
Record quat (R : Type) := Quat { q1 : R; qi : R; qj : R; qk : R }.
Section Quaternions.
Variable R : comRingType.
Definition hamilton (p q : quat R) : quat R :=
  Quat (q1 p * q1 q - qi p * qi q - qj p * qj q - qk p * qk q)
       (q1 p * qi q + qi p * q1 q + qj p * qk q - qk p * qj q)
       (q1 p * qj q + qj p * q1 q + qk p * qi q - qi p * qk q)
       (q1 p * qk q + qk p * q1 q + qi p * qj q - qj p * qi q).
Definition conj (q : quat R) : quat R := Quat (q1 q) (- qi q) (- qj q) (- qk q).
Definition qnorm (q : quat R) : R := q1 q ^+ 2 + qi q ^+ 2 + qj q ^+ 2 + qk q ^+ 2.
(* the quaternion stored as (x, y, z, w), and a vector as a quaternion *)
Definition quat_of (v : nat -> R) : quat R := Quat (v 3%N) (v 0%N) (v 1%N) (v 2%N).
Definition pure (v : nat -> R) : quat R := Quat 0 (v 0%N) (v 1%N) (v 2%N).
End Quaternions.

(* the point x M + v: coordinate j of the row vector (x, 1) times the
   transform *)
Definition apply_row (R : comRingType) (n : nat) (A : nat -> nat -> R) (x : nat -> R) : 'rV[R]_n.+1 :=
  rv n.+1 (hom n x) *m mx n.+1 n.+1 A.

(* Rodrigues' formula: v turned about the unit vector u *)
Definition rodrigues (R : comRingType) (u : nat -> R) (c s : R) (v : nat -> R) : nat -> R :=
  let uv := u 0%N * v 0%N + u 1%N * v 1%N + u 2%N * v 2%N in
  let cross i := match i with
    | 0%N => u 1%N * v 2%N - u 2%N * v 1%N
    | 1%N => u 2%N * v 0%N - u 0%N * v 2%N
    | _ => u 0%N * v 1%N - u 1%N * v 0%N end in
  fun i => c * v i + s * cross i + (1 - c) * uv * u i.

(* the (n + 1) x (n + 1) matrix A acts as the n x n matrix M on the first n
   coordinates and leaves the last alone *)
Definition extends (R : comRingType) (n : nat) (A M : nat -> nat -> R) : Prop :=
  forall i j, (i < n.+1)%N -> (j < n.+1)%N ->
    A i j = if (i < n)%N && (j < n)%N then M i j else ((i == n) && (j == n))%:R.
