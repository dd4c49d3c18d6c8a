(** Specification vocabulary for bit utilities: everything is said through [N.testbit] and arithmetic. *)
From Verif Require Import Prelude.
Local Open Scope N_scope.

(** number of set bits among bits 0..n-1 of x *)
Definition popcount (n : nat) (x : N) : nat :=
  length (filter (fun i => N.testbit x (N.of_nat i)) (seq 0 n)).
(** [y] has x's bit k at position 3k and nothing else *)
Definition spread3 (x y : N) : Prop :=
  forall i, N.testbit y i = if i mod 3 =? 0 then N.testbit x (i / 3) else false.
(** gather: [y] consists of the data bits at the set positions of the mask, packed together in order: the data bit at
    a set position p goes to bit (number of set positions below p), and there is nothing above. *)
Definition gathers (mask data y : N) : Prop :=
  (forall p, (p < 64)%nat -> N.testbit mask (N.of_nat p) = true ->
     N.testbit y (N.of_nat (popcount p mask)) = N.testbit data (N.of_nat p)) /\
  y < 2 ^ N.of_nat (popcount 64 mask).
(** scatter: bit p of [y] is set exactly when p is in the mask and the data bit of p's rank is set *)
Definition scatters (mask : N) (data : Z) (y : N) : Prop :=
  forall p : nat, N.testbit y (N.of_nat p) = N.testbit mask (N.of_nat p) && Z.testbit data (Z.of_nat (popcount p mask)).
(** least power of two not below n *)
Definition least_pow2 (n r : N) : Prop := (exists k, r = 2 ^ k) /\ n <= r /\ (forall k, n <= 2 ^ k -> r <= 2 ^ k).
(** r is the number of binary digits of n *)
Definition digits2 (n r : N) : Prop := n < 2 ^ r /\ (0 < n -> 2 ^ (r - 1) <= n /\ 0 < r) /\ (n = 0 -> r = 0).
