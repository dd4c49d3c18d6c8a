(** Specification for C93. *)
From Coq Require Import ZArith List.
Import ListNotations.
From Verif Require Import PcgModel.
Open Scope Z_scope.

Definition word (b x : Z) : Prop := 0 <= x < 2 ^ b.
(** the generator after k calls and the result of the call after these *)
Fixpoint after (k : nat) (g : rng) : rng := match k with O => g | S j => snd (call (after j g)) end.
Definition draw (g : rng) (k : nat) : Z := fst (call (after k g)).
(** exactly n numbers have the property P: they can be numbered 0 .. n-1 *)
Definition exactly (n : Z) (P : Z -> Prop) : Prop :=
  exists f : Z -> Z, (forall i, 0 <= i < n -> P (f i)) /\ (forall i j, 0 <= i < n -> 0 <= j < n -> f i = f j -> i = j) /\
    (forall k, P k -> exists i, 0 <= i < n /\ f i = k).
(** the characters of a time of day hh:mm:ss *)
Definition digit (c : Z) : Prop := 48 <= c <= 57.
Definition clock (h1 h2 m1 m2 s1 s2 : Z) : list Z := [h1; h2; 58; m1; m2; 58; s1; s2]%list.
