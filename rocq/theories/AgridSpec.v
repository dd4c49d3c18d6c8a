(** Specification: blocks, cells and row-major offsets, in plain arithmetic. *)
From Verif Require Import Prelude.
Open Scope Z_scope.

(** y is the largest multiple of g that is <= x *)
Definition floor_to (g x y : Z) : Prop := (exists k, y = k * g) /\ 0 <= x - y < g.
(** offset of the digits l (most significant first) in base w *)
Fixpoint row_major (w : Z) (l : list Z) : Z :=
  match l with [] => 0 | x :: r => x * w ^ Z.of_nat (length r) + row_major w r end.
