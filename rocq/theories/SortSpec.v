(** What it means to be the stable sort of a list. *)
From Coq Require Import Sorted.
From Verif Require Import Prelude.

Section S.
Context {A : Type}.
Variable comp : A -> A -> bool.
(** comp is a strict weak order (the requirement C++ puts on comparators) *)
Definition strict_weak_order : Prop :=
  (forall x, comp x x = false) /\
  (forall x y z, comp x y = true -> comp y z = true -> comp x z = true) /\
  (forall x y z, comp x y = true -> comp x z = true \/ comp z y = true).
(** neither before the other *)
Definition equiv (x y : A) : bool := negb (comp x y) && negb (comp y x).
(** ascending: no element is before an earlier one *)
Definition ascending (l : list A) : Prop := StronglySorted (fun x y => comp y x = false) l.
(** out is in, in ascending order, equivalent elements keeping their relative order *)
Definition stable_sort_of (inp out : list A) : Prop :=
  Permutation inp out /\ ascending out /\ forall x, filter (equiv x) out = filter (equiv x) inp.
End S.
