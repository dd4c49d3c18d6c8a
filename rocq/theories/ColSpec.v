(* Vocabulary for the collider properties. *)
From Coq Require Import Reals Arith.
From Verif Require Import CmModel CmSpec ColModel.
Local Open Scope R_scope.

Definition plane_or_space (d : nat) : Prop := d = 2%nat \/ d = 3%nat.
(* inner product of the first d entries *)
Definition inner (d : nat) (x y : vec) : R := vsum d (fun i => x i * y i).
Definition unit (d : nat) (n : vec) : Prop := inner d n n = 1.
Definition same (d : nat) (x y : vec) : Prop := forall i, (i < d)%nat -> x i = y i.
Definition minus (x y : vec) : vec := fun i => x i - y i.
(* the placement of the material point X in the world: R s X + b *)
Definition place (d : nat) (M : mat) (sc : R) (tb X : vec) : vec :=
  fun i => vsum d (fun j => M i j * (sc * X j)) + tb i.
(* the matrix of the cross product with w (a single number in the plane) *)
Definition spin (d : nat) (w : vec) : mat := fun i j =>
  match d, i, j with
  | 2%nat, 0%nat, 1%nat => - w 0%nat | 2%nat, 1%nat, 0%nat => w 0%nat
  | 3%nat, 0%nat, 1%nat => - w 2%nat | 3%nat, 1%nat, 0%nat => w 2%nat
  | 3%nat, 0%nat, 2%nat => w 1%nat | 3%nat, 2%nat, 0%nat => - w 1%nat
  | 3%nat, 1%nat, 2%nat => - w 0%nat | 3%nat, 2%nat, 1%nat => w 0%nat
  | _, _, _ => 0
  end.
Definition times (d : nat) (A B : mat) : mat := fun i j => vsum d (fun k => A i k * B k j).
(* the Euclidean distance *)
Definition distance (d : nat) (x y : vec) : R := sqrt (inner d (minus x y) (minus x y)).
(* the level set depends on the first d entries of its argument only *)
Definition proper (d : nat) (c : collider) : Prop := forall X Y, same d X Y ->
  lsd c X = lsd c Y /\ same d (lnormal c X) (lnormal c Y) /\ same d (lvel c X) (lvel c Y).
