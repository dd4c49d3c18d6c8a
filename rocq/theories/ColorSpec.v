(** Specification: graph colouring. *)
From Verif Require Import Prelude.
Open Scope Z_scope.

(** u is listed in the row of v *)
Definition adjacent (adj : list (list nat)) (v u : nat) : Prop := exists r, nth_error adj v = Some r /\ In u r.
Definition symmetric (adj : list (list nat)) : Prop := forall v u, adjacent adj v u -> adjacent adj u v.
(** adjacent vertices have different weights *)
Definition weights_differ (adj : list (list nat)) (ws : list Z) : Prop := forall v u, adjacent adj v u -> u <> v -> nth v ws 0 <> nth u ws 0.
(** every vertex has a colour in 1..count *)
Definition complete (nv : nat) (colors : list Z) (count : Z) : Prop :=
  length colors = nv /\ forall v c, nth_error colors v = Some c -> 1 <= c <= count.
Definition proper (adj : list (list nat)) (colors : list Z) : Prop :=
  forall v u c d, adjacent adj v u -> u <> v -> nth_error colors v = Some c -> nth_error colors u = Some d -> c <> d.
(** every colour class is maximal: a vertex of colour c has a neighbour of every smaller colour *)
Definition greedy (adj : list (list nat)) (colors : list Z) : Prop :=
  forall v c d, nth_error colors v = Some c -> 1 <= d < c -> exists u, adjacent adj v u /\ nth_error colors u = Some d.
