(** Specification for C100. *)
From Coq Require Import Reals.
From Verif Require Import Prelude RdModel.
Local Open Scope R_scope.

(** what the generator delivers *)
Definition uniform (s : stream) : Prop := forall k, 0 <= s k < 1.
Definition total (l : list R) : R := fold_right Rplus 0 l.
(** weights: as many as corners, none negative, sum one *)
Definition convex (m : nat) (w : list R) : Prop := length w = S m /\ (forall x, In x w -> 0 <= x) /\ total w = 1.
(** squared distance, one coordinate after the other *)
Fixpoint sqr_dist (r c : list R) : R := match r, c with x :: r, y :: c => (x - y)² + sqr_dist r c | _, _ => 0 end.
Definition in_ball (c : list R) (radius : R) (r : list R) : Prop := length r = length c /\ sqr_dist r c <= radius².
(** m numbers of the stream from position n *)
Definition slice (s : stream) (n m : nat) : list R := map (fun i => s (n + i)%nat) (seq 0 m).
(** the point of the cube around c that the numbers from position n stand for: 0 is one side, 1 the other *)
Definition point (s : stream) (n : nat) (c : list R) (radius : R) : list R := map (fun p => fst p + radius * (2 * s (n + snd p)%nat - 1)) (combine c (seq 0 (length c))).
