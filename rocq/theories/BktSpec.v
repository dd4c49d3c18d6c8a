(** What buckets should hold. *)
From Coq Require Import QArith Qround Qabs.
From Verif Require Import Prelude.
From Verif Require BktModel.
Open Scope Z_scope.

(** the grid cell of width dx around a node that contains x: nearest node *)
Definition nearest (dx : Q) (x : list Q) : list Z := map (fun v => Qfloor (v / dx + (1#2))) x.
(** particles whose cell is c *)
Definition members (cell : nat -> list Z) (n : nat) (c : list Z) : list nat :=
  filter (fun p => if list_eq_dec Z.eq_dec (cell p) c then true else false) (seq 0 n).
(** a contiguous piece of an array *)
Definition piece (a : Z -> Z) (from len : Z) : list Z := map (fun j => a (from + Z.of_nat j)) (seq 0 (Z.to_nat len)).
(** x and y are at most r apart in every axis *)
Definition close (r : Q) (x y : list Q) : Prop := Forall2 (fun a b => (Qabs (a - b) <= r)%Q) x y.
(** c and c' differ by at most one in every axis *)
Definition adjacent (c c' : list Z) : Prop := Forall2 (fun a b => -1 <= b - a <= 1) c c'.
