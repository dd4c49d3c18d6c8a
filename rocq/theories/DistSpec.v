(* Distances between points, segments and triangles, independently of the
   code: the least squared distance between points of the two sets. *)
From mathcomp Require Import all_ssreflect all_algebra.
Set Implicit Arguments.
Unset Strict Implicit.
Unset Printing Implicit Defensive.
Local Open Scope ring_scope.

Section Spec.
Variable T : realFieldType.
Notation vec := (nat -> T).

(* the squared distance of two points of dimension n *)
Definition dist2 (n : nat) (x y : vec) : T := \sum_(i < n) (x i - y i) ^+ 2.

(* the point at parameter s of the segment from a to b *)
Definition seg_at (a b : vec) (s : T) : vec := fun i => (1 - s) * a i + s * b i.
Definition on_seg (a b x : vec) : Prop := exists s, 0 <= s <= 1 /\ x = seg_at a b s.

(* the point of a triangle at the barycentric coordinates 1 - s - t, s, t *)
Definition tri_at (a b c : vec) (s t : T) : vec :=
  fun i => (1 - s - t) * a i + s * b i + t * c i.
Definition on_tri (a b c x : vec) : Prop :=
  exists s t, [/\ 0 <= s, 0 <= t, s + t <= 1 & x = tri_at a b c s t].

(* r is the least squared distance between points of A and points of B *)
Definition least_dist2 (n : nat) (A B : vec -> Prop) (r : T) : Prop :=
  (exists x y, [/\ A x, B y & r = dist2 n x y]) /\
  (forall x y, A x -> B y -> r <= dist2 n x y).

(* the triangle has three distinct, not collinear corners: no nontrivial
   combination of two sides vanishes *)
Definition proper_tri (n : nat) (a b c : vec) : Prop :=
  forall s t, (forall i, (i < n)%N -> s * (b i - a i) + t * (c i - a i) = 0) -> s = 0 /\ t = 0.
(* the two end points differ *)
Definition proper_seg (n : nat) (a b : vec) : Prop := exists2 i, (i < n)%N & a i <> b i.

(* x, the point of a triangle closest to p, lies on the feature f: 0, 1, 2 are
   the corners, 3, 4, 5 the open edges ab, bc, ca; 6 says that x is even the
   closest point of the plane *)
Definition tri_feature (n : nat) (p a b c : vec) (f : nat) (x : vec) : Prop :=
  match f with
  | 0 => x = tri_at a b c 0 0
  | 1 => x = tri_at a b c 1 0
  | 2 => x = tri_at a b c 0 1
  | 3 => exists s, 0 < s < 1 /\ x = tri_at a b c s 0
  | 4 => exists s, 0 < s < 1 /\ x = tri_at a b c s (1 - s)
  | 5 => exists t, 0 < t < 1 /\ x = tri_at a b c 0 t
  | 6 => on_tri a b c x /\ forall s t, dist2 n p x <= dist2 n p (tri_at a b c s t)
  | _ => False
  end.
(* x, the point of a segment closest to y, lies on the feature f: 0 and 1 are
   the end points; 2 says that x is even the closest point of the line *)
Definition seg_feature (n : nat) (y a b : vec) (f : nat) (x : vec) : Prop :=
  match f with
  | 0 => x = seg_at a b 0
  | 1 => x = seg_at a b 1
  | 2 => on_seg a b x /\ forall s, dist2 n x y <= dist2 n (seg_at a b s) y
  | _ => False
  end.

(* the numbers of a pair of segments that the code compares with a tolerance
   are zero or not below the tolerance: with u and v the directions and w the
   difference of the first end points, these are the parameters of the closest
   points before division *)
Definition decided (eps x : T) : Prop := x = 0 \/ eps <= `|x|.
Definition inner (n : nat) (x y : vec) : T := \sum_(i < n) x i * y i.
Definition resolved (eps : T) (n : nat) (ea0 ea1 eb0 eb1 : vec) : Prop :=
  let u := fun i => ea1 i - ea0 i in
  let v := fun i => eb1 i - eb0 i in
  let w := fun i => ea0 i - eb0 i in
  let a := inner n u u in let b := inner n u v in let c := inner n v v in
  let d := inner n u w in let e := inner n v w in
  [/\ decided eps (a * c - b * b), decided eps (b * e - c * d), decided eps (a * e - b * d) &
  [/\ decided eps e, decided eps (e + b), decided eps c, decided eps d & decided eps (b - d)]].
(* all coordinates are integers *)
Definition integer_point (x : vec) : Prop := forall i, exists z : int, x i = z%:~R.

(* the segments are exactly parallel, or the squared sine of the angle between
   them is at least tiny *)
Definition angle_above (tiny : T) (ea0 ea1 eb0 eb1 : vec) : Prop :=
  let u := fun i => ea1 i - ea0 i in
  let v := fun i => eb1 i - eb0 i in
  let sin2 := inner 3 u u * inner 3 v v - inner 3 u v * inner 3 u v in
  sin2 = 0 \/ tiny * inner 3 u u * inner 3 v v <= sin2.

(* two sets of points of dimension n have a common point *)
Definition meet (n : nat) (A B : vec -> Prop) : Prop :=
  exists x y, [/\ A x, B y & forall i, (i < n)%N -> x i = y i].
(* a direction lies in the plane of a triangle *)
Definition in_plane (a b c d : vec) : Prop :=
  exists s t, forall i, (i < 3)%N -> d i = s * (b i - a i) + t * (c i - a i).

(* q0, q1 and q2 are the value, the slope and the curvature of f at x: the
   expansion is exact for polynomials of degree two *)
Definition expansion2 (f : T -> T) (x q0 q1 q2 : T) : Prop :=
  forall h, f (x + h) = q0 + h * q1 + h * h / 2%:R * q2.
End Spec.
(* the point with three given coordinates *)
Definition pt3 (T : realFieldType) (x y z : T) : nat -> T :=
  fun i => match i with 0 => x | 1 => y | 2 => z | _ => 0 end.
