(** Model of container/Bvtt.hpp: BvttFront (8-67), BvttFront::reorder (69-104), BvttFrontView::push_back (136-145), prim/node (168-175).
    Ids are nat; maxid is ~(value_type)0.  The vectors hold as many elements as their capacity (as constructed, 39-45).  A parallel loop
    is the order in which its atomic operations take effect plus any order of its plain stores.  None: access outside an array. *)
From Verif Require Import Prelude SortModel CountModel.

Section B.
Variable maxid : nat.
(** the members of BvttFront: _primIds, _nodeIds, _cnt (Bvtt.hpp 64-67) *)
Record front := { prims : list nat; nodes : list nat; cnt : nat }.
(** _numFrontNodes *)
Definition cap (f : front) : nat := Nat.min (length (prims f)) (length (nodes f)).
(** prim(i), node(i) *)
Definition prim_at (f : front) (i : nat) : nat := if i <? cap f then nth i (prims f) 0 else maxid.
Definition node_at (f : front) (i : nat) : nat := if i <? cap f then nth i (nodes f) 0 else maxid.

(** the stores of the push_back calls, given in the order of their atomic_add on the counter *)
Fixpoint push_stores (c : nat) (capacity : nat) (ps : list (nat * nat)) : list (nat * (nat * nat)) :=
  match ps with [] => [] | p :: r => (if c <? capacity then [(c, p)] else []) ++ push_stores (S c) capacity r end.
(** an execution of concurrent push_back calls for the pairs [ps] *)
Definition push_run (f : front) (ps : list (nat * nat)) (r : option front) : Prop :=
  exists ord wp wn, Permutation ord ps /\
    Permutation wp (map (fun w => (fst w, fst (snd w))) (push_stores (cnt f) (cap f) ord)) /\
    Permutation wn (map (fun w => (fst w, snd (snd w))) (push_stores (cnt f) (cap f) ord)) /\
    r = bind (run_stores (prims f) wp) (fun p => bind (run_stores (nodes f) wn) (fun n => Some {| prims := p; nodes := n; cnt := cnt f + length ps |})).

(** the front nodes as the kernels of reorder read them *)
Definition items (f : front) : list (nat * nat) := map (fun i => (prim_at f i, node_at f i)) (seq 0 (cnt f)).
(** an execution of reorder for a hierarchy of nn nodes: count (83-86), scan (88), take tickets and store into the copies (93-100) *)
Definition reorder_run (nn : nat) (f : front) (r : option front) : Prop :=
  exists o1 o2, Permutation o1 (items f) /\ Permutation o2 (items f) /\
    match bind (tickets snd (repeat 0 nn) o1) (fun '(cs, _) => bind (tickets snd (repeat 0 nn) o2) (fun '(_, ts) => targets snd (escan 0 cs) ts)) with
    | None => r = None
    | Some ws => exists wp wn, Permutation wp (map (fun w => (fst w, fst (snd w))) ws) /\ Permutation wn (map (fun w => (fst w, snd (snd w))) ws) /\
        r = bind (run_stores (prims f) wp) (fun p => bind (run_stores (nodes f) wn) (fun n => Some {| prims := p; nodes := n; cnt := cnt f |}))
    end.
End B.
