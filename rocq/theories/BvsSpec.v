(** Specification of box intersection and of neighbour queries: no reference to sorting or to the code's overlap test. *)
From Verif Require Import Prelude.
Open Scope Z_scope.

(** a box (lower corner, upper corner) as a set of points *)
Definition in_box (b : list Z * list Z) (p : list Z) : Prop :=
  forall d, (d < length p)%nat -> nth d (fst b) 0 <= nth d p 0 <= nth d (snd b) 0.
Definition nonempty (dim : nat) (b : list Z * list Z) : Prop := forall d, (d < dim)%nat -> nth d (fst b) 0 <= nth d (snd b) 0.
(** two boxes intersect: they have a common point *)
Definition meet (dim : nat) (a b : list Z * list Z) : Prop := exists p, length p = dim /\ in_box a p /\ in_box b p.

(** [out] lists exactly once each primitive meeting the query *)
Definition exact_hits (dim : nat) (prims : list (list Z * list Z)) (q : list Z * list Z) (out : list nat) : Prop :=
  NoDup out /\ forall k, In k out <-> exists b, nth_error prims k = Some b /\ meet dim b q.
(** [out] lists each unordered pair of distinct intersecting primitives exactly once, in one of the two orders, and nothing else *)
Definition exact_pairs (dim : nat) (prims : list (list Z * list Z)) (out : list (nat * nat)) : Prop :=
  NoDup out /\
  (forall i j, In (i, j) out -> i <> j /\ exists a b, nth_error prims i = Some a /\ nth_error prims j = Some b /\ meet dim a b) /\
  (forall i j a b, i <> j -> nth_error prims i = Some a -> nth_error prims j = Some b -> meet dim a b ->
     (In (i, j) out /\ ~ In (j, i) out) \/ (In (j, i) out /\ ~ In (i, j) out)).
