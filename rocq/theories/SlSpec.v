(** * Where the values of a level set live *)

From Coq Require Import QArith Qabs List ZArith.
Import ListNotations.
Open Scope Q_scope.

(** Cell z covers [z, z + 1) in every dimension; its lower face of orientation f is centred at z in
    dimension f and at z + 1/2 in the others. *)
Fixpoint face_centre_from (s f : nat) (z : list Z) : list Q :=
  match z with
  | [] => []
  | x :: z' => (if Nat.eqb s f then inject_Z x else inject_Z x + (1#2)) :: face_centre_from (S s) f z'
  end.
Definition face_centre (f : nat) (z : list Z) : list Q := face_centre_from 0 f z.

(** The cell of local coordinates o in a block: row-major, 8 cells per dimension. *)
Fixpoint cell_number (o : list Z) : Z :=
  match o with [] => 0%Z | x :: r => (x * 8 ^ Z.of_nat (length r) + cell_number r)%Z end.
Definition local (o : list Z) : Prop := Forall (fun x => (0 <= x < 8)%Z) o.
Definition block_coord (k : list Z) : Prop := Forall (fun x => (8 | x)%Z) k.
Fixpoint sum (a b : list Z) : list Z := match a, b with x :: a', y :: b' => (x + y)%Z :: sum a' b' | _, _ => [] end.

(** The centre of the lower or upper face of cell c in dimension i. *)
Fixpoint side_centre_from (s i : nat) (up : bool) (c : list Z) : list Q :=
  match c with
  | [] => []
  | x :: c' => (inject_Z x + (if Nat.eqb s i then (if up then 1 else 0) else 1#2)) :: side_centre_from (S s) i up c'
  end.
Definition side_centre (i : nat) (up : bool) (c : list Z) : list Q := side_centre_from 0 i up c.
