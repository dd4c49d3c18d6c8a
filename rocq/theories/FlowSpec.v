(** Networks, flows and cuts; nothing here refers to the algorithm. *)
From Verif Require Import Prelude.
Local Open Scope Z_scope.

(** sum of g 0 ... g (n-1) *)
Fixpoint sumn (n : nat) (g : nat -> Z) : Z := match n with O => 0 | S k => sumn k g + g k end.

(** the matrix with compressed rows (ptrs, cols) has at row u, column v an entry, stored at position j *)
Definition entry (ptrs cols : list nat) (u v j : nat) : Prop :=
  exists a e, nth_error ptrs u = Some a /\ nth_error ptrs (S u) = Some e /\ (a <= j < e)%nat /\ nth_error cols j = Some v.
(** a well-formed matrix of n rows: no repeated entry, and with every entry the transposed one is stored too; the values are not negative *)
Definition network (n : nat) (ptrs cols : list nat) (vals : list Z) : Prop :=
  length ptrs = S n /\ length vals = length cols /\
  (forall u a, nth_error ptrs u = Some a -> (a <= length cols)%nat) /\
  (forall u v j, entry ptrs cols u v j -> (v < n)%nat /\ exists j', entry ptrs cols v u j') /\
  (forall u v j j', entry ptrs cols u v j -> entry ptrs cols u v j' -> j = j') /\
  Forall (fun x => 0 <= x) vals.
(** rows are in order: no position belongs to two rows *)
Definition rows_apart (ptrs cols : list nat) : Prop := forall u u' v v' j, entry ptrs cols u v j -> entry ptrs cols u' v' j -> u = u'.
(** c is the capacity function stored in the matrix *)
Definition capacity (ptrs cols : list nat) (vals : list Z) (c : nat -> nat -> Z) : Prop :=
  forall u v, (forall j, entry ptrs cols u v j -> nth_error vals j = Some (c u v)) /\ ((forall j, ~ entry ptrs cols u v j) -> c u v = 0).

(** a flow from s to t in the network with capacities c on vertices 0 .. n-1 *)
Definition is_flow (n : nat) (c : nat -> nat -> Z) (s t : nat) (f : nat -> nat -> Z) : Prop :=
  (forall u v, f u v = - f v u) /\
  (forall u v, (u < n)%nat -> (v < n)%nat -> f u v <= c u v) /\
  (forall u, (u < n)%nat -> u <> s -> u <> t -> sumn n (f u) = 0).
Definition value (n : nat) (s : nat) (f : nat -> nat -> Z) : Z := sumn n (f s).
(** the capacity of a cut *)
Definition cut (n : nat) (c : nat -> nat -> Z) (side : nat -> bool) : Z :=
  sumn n (fun u => if side u then sumn n (fun v => if side v then 0 else c u v) else 0).
