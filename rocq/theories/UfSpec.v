(** Specification: connectivity of a graph, and following parent pointers. *)
From Verif Require Import Prelude.

Inductive connected (edge : nat -> nat -> Prop) : nat -> nat -> Prop :=
| conn_refl u : connected edge u u
| conn_step u v w : connected edge u v -> edge v w -> connected edge u w.

(** r is the root reached from x by following parents *)
Inductive chases (fas : list nat) : nat -> nat -> Prop :=
| chase_root r : nth_error fas r = Some r -> chases fas r r
| chase_up x y r : nth_error fas x = Some y -> y <> x -> chases fas y r -> chases fas x r.

(** the matrix describes an undirected graph on n vertices; u is a stored, not skipped, neighbour of v *)
Definition stored_edge {A} (ptrs inds : list nat) (vals : list A) (skip : A -> bool) (v u : nat) : Prop :=
  exists k x, nth v ptrs 0 <= k < nth (S v) ptrs 0 /\ nth_error inds k = Some u /\ nth_error vals k = Some x /\ skip x = false.
Definition graph_edge {A} (n : nat) (ptrs inds : list nat) (vals : list A) (skip : A -> bool) (v u : nat) : Prop := v < n /\ stored_edge ptrs inds vals skip v u.
Definition undirected {A} (n : nat) (ptrs inds : list nat) (vals : list A) (skip : A -> bool) : Prop :=
  forall v u, graph_edge n ptrs inds vals skip v u -> graph_edge n ptrs inds vals skip u v.
