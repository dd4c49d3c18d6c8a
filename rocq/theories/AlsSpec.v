(* Solids, their boundaries and signed distances, independently of the code. *)
From mathcomp Require Import all_ssreflect all_algebra.
From Verif Require Import DistSpec.
Set Implicit Arguments.
Unset Strict Implicit.
Unset Printing Implicit Defensive.
Local Open Scope ring_scope.

Section Spec.
Variable T : realFieldType.
Notation vec := (nat -> T).

(* r is the signed distance of x to a solid: its square is the least squared
   distance to the boundary for a point of the solid, where r <= 0, and to the
   solid for any other point, where r > 0 *)
Definition signed_distance (n : nat) (solid boundary : vec -> Prop) (x : vec) (r : T) : Prop :=
  (solid x -> r <= 0 /\ least_dist2 n (eq x) boundary (r ^+ 2)) /\
  (~ solid x -> 0 < r /\ least_dist2 n (eq x) solid (r ^+ 2)).

(* a box, given by two opposite corners *)
Definition in_box (n : nat) (box : vec * vec) (x : vec) : Prop :=
  forall i, (i < n)%N -> box.1 i <= x i <= box.2 i.
Definition box_boundary (n : nat) (box : vec * vec) (x : vec) : Prop :=
  in_box n box x /\ exists2 i, (i < n)%N & x i = box.1 i \/ x i = box.2 i.
Definition box_ok (n : nat) (box : vec * vec) : Prop := forall i, (i < n)%N -> box.1 i <= box.2 i.
Definition within_box (n : nat) (a b : vec * vec) : Prop :=
  forall i, (i < n)%N -> b.1 i <= a.1 i /\ a.2 i <= b.2 i.

(* a ball *)
Definition in_ball (n : nat) (c : vec) (r : T) (x : vec) : Prop := dist2 n x c <= r ^+ 2.
Definition on_sphere (n : nat) (c : vec) (r : T) (x : vec) : Prop := dist2 n x c = r ^+ 2.

(* the half space below a plane *)
Definition in_half (n : nat) (o m x : vec) : Prop := inner n m (fun i => x i - o i) <= 0.
Definition on_plane (n : nat) (o m x : vec) : Prop := inner n m (fun i => x i - o i) = 0.

(* a cylinder along the axis d of space *)
Definition radial2 (b : vec) (d : nat) (x : vec) : T :=
  \sum_(i < 3 | (i != d :> nat)) (x i - b i) ^+ 2.
Definition in_cylinder (b : vec) (r l : T) (d : nat) (x : vec) : Prop :=
  radial2 b d x <= r ^+ 2 /\ b d <= x d <= b d + l.
Definition cylinder_boundary (b : vec) (r l : T) (d : nat) (x : vec) : Prop :=
  in_cylinder b r l d x /\ (radial2 b d x = r ^+ 2 \/ x d = b d \/ x d = b d + l).

(* the position at time t of a point moving from x with velocity v *)
Definition at_time (x v : vec) (t : T) : vec := fun i => x i + t * v i.
End Spec.
Section Bounds.
Variable T : realFieldType.
Notation vec := (nat -> T).
(* the box is the smallest that contains the solid *)
Definition bounds (n : nat) (solid : vec -> Prop) (box : vec * vec) : Prop :=
  (forall x, solid x -> in_box n box x) /\
  (forall b, (forall x, solid x -> in_box n b x) -> within_box n box b).
(* a ray, without its direction normalised *)
Definition on_ray (ro rd : vec) (t : T) : vec := fun i => ro i + t * rd i.
End Bounds.
Section Swept.
Variable T : realFieldType.
Notation vec := (nat -> T).
(* what a moving point, segment or triangle covers until the time toc *)
Definition swept_pt (toc : T) (p v x : vec) : Prop :=
  exists tau, 0 <= tau <= toc /\ x = at_time p v tau.
Definition swept_seg (toc : T) (a b va vb x : vec) : Prop :=
  exists tau, 0 <= tau <= toc /\ on_seg (at_time a va tau) (at_time b vb tau) x.
Definition swept_tri (toc : T) (a b c va vb vc x : vec) : Prop :=
  exists tau, 0 <= tau <= toc /\ on_tri (at_time a va tau) (at_time b vb tau) (at_time c vc tau) x.
(* along the axis i all points of A lie more than e below all points of B *)
Definition below (i : nat) (e : T) (A B : vec -> Prop) : Prop :=
  forall x y, A x -> B y -> x i + e < y i.
End Swept.
