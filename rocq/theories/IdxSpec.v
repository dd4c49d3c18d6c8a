(** Specification for C95. *)
From Coq Require Import ZArith List Arith Permutation.
Import ListNotations.
Open Scope Z_scope.

(** a is an index of the box with the extents ns *)
Definition index (ns a : list Z) : Prop := Forall2 (fun n x => 0 <= x < n) ns a.
(** the coordinates in storage order, the slowest one first *)
Definition arranged (orders : list nat) (a : list Z) : list Z := map (fun o => nth o a 0) orders.
(** strict lexicographic order *)
Inductive lex : list Z -> list Z -> Prop :=
| lex_here x y r s : x < y -> length r = length s -> lex (x :: r) (y :: s)
| lex_there x r s : lex r s -> lex (x :: r) (x :: s).
(** a storage order of d dimensions *)
Definition storage_order (d : nat) (orders : list nat) : Prop := Permutation orders (seq 0 d).
Definition product (l : list Z) : Z := fold_right Z.mul 1 l.
Definition total (l : list Z) : Z := fold_right Z.add 0 l.
