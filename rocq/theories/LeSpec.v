(** * The blocks reachable through the inside of a level set *)

From Coq Require Import ZArith List.
From Verif Require Import LdModel LdSpec.
Local Open Scope Z_scope.

(** Cell c belongs to the 8 x 8 x 8 cells of the block with first cell k. *)
Definition in_block (k c : key) : Prop :=
  let '(x, y, z) := k in let '(x', y', z') := c in
  x <= x' < x + 8 /\ y <= y' < y + 8 /\ z <= z' < z + 8.

(** Blocks sit at multiples of 8. *)
Definition aligned (k : key) : Prop := let '(x, y, z) := k in (8 | x) /\ (8 | y) /\ (8 | z).

(** Cells that touch, or coincide. *)
Definition touching (c d : key) : Prop :=
  let '(x, y, z) := c in let '(x', y', z') := d in
  Z.abs (x' - x) <= 1 /\ Z.abs (y' - y) <= 1 /\ Z.abs (z' - z) <= 1.

(** A block is reached if it was there, or holds an inside cell that touches a cell of a reached
    block. *)
Inductive reached (inside : key -> bool) (s : spls) : key -> Prop :=
| r_there k : tab s k <> None -> reached inside s k
| r_step k c d k' : reached inside s k -> in_block k c -> touching c d -> inside d = true ->
    aligned k' -> in_block k' d -> reached inside s k'.

(** Only finitely many blocks are reached. *)
Definition finite_reach (inside : key -> bool) (s : spls) : Prop :=
  exists L, forall k, reached inside s k -> In k L.
