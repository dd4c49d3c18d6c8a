(** Specification of the stored tree: a full binary tree with primitives at the leaves, written out in pre-order. *)
From Verif Require Import Prelude.
Open Scope Z_scope.

Inductive tree := Leaf (prim : Z) | Node (l r : tree).
Fixpoint prims (t : tree) : list Z := match t with Leaf p => [p] | Node l r => prims l ++ prims r end.
Fixpoint size (t : tree) : Z := match t with Leaf _ => 1 | Node l r => 1 + size l + size r end.
(** trunk nodes on the way to the leftmost leaf *)
Fixpoint spine (t : tree) : Z := match t with Leaf _ => 0 | Node l _ => 1 + spine l end.
(** the stored nodes (level, auxiliary index, parent) of a tree whose root is node number pos, whose parent is node number par, and
    after which the traversal goes on at node number esc: a leaf stores its primitive, a trunk node the node to go on with *)
Fixpoint stored (t : tree) (pos par esc : Z) : list (Z * Z * Z) :=
  match t with
  | Leaf p => [(0, p, par)]
  | Node l r => (1 + spine l, esc, par) :: stored l (pos + 1) pos (pos + 1 + size l) ++ stored r (pos + 1 + size l) pos esc
  end.
(** node numbers of the leaves *)
Fixpoint leaf_nodes (t : tree) (pos : Z) : list Z :=
  match t with Leaf _ => [pos] | Node l r => leaf_nodes l (pos + 1) ++ leaf_nodes r (pos + 1 + size l) end.
