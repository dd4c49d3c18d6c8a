(** The order radix sort sorts by. *)
From Verif Require Import Prelude SortSpec.
Local Open Scope Z_scope.
(** keys representable in a w-bit type *)
Definition key_ok (w : nat) (sgn : bool) (k : Z) : Prop :=
  if sgn then - 2 ^ (Z.of_nat w - 1) <= k < 2 ^ (Z.of_nat w - 1) else 0 <= k < 2 ^ Z.of_nat w.
(** signed keys are compared as offset binary, so that the order of the bit strings is the numeric order *)
Definition biased (w : nat) (sgn : bool) (k : Z) : Z := if sgn then k + 2 ^ (Z.of_nat w - 1) else k.
(** the number formed by bits [s, e) *)
Definition bits_at (s e : nat) (u : Z) : Z := (u / 2 ^ Z.of_nat s) mod 2 ^ Z.of_nat (e - s).
(** order by the selected bits, and numeric order, of the keys of two pairs *)
Definition by_bits {V} (w : nat) (sgn : bool) (s e : nat) (x y : Z * V) : bool :=
  bits_at s e (biased w sgn (fst x)) <? bits_at s e (biased w sgn (fst y)).
Definition by_key {V} (x y : Z * V) : bool := fst x <? fst y.
