(** What a user expects of a stack of blocks carved from one buffer. *)
From Verif Require Import Prelude.
Local Open Scope Z_scope.

(** a block is (address, length) *)
Definition block := (Z * Z)%type.
Definition blk_ok (lo hi align : Z) (b : block) : Prop := (align | fst b) /\ lo <= fst b /\ 0 <= snd b /\ fst b + snd b <= hi.
Definition disjoint (a b : block) : Prop := fst a + snd a <= fst b \/ fst b + snd b <= fst a.
Definition all_disjoint (l : list block) : Prop :=
  forall i j a b, nth_error l i = Some a -> nth_error l j = Some b -> i <> j -> disjoint a b.
(** calls of a client that frees in LIFO order: allocate n bytes, or free the most recent live block *)
Inductive call := Alloc (bytes : Z) | FreeTop.
