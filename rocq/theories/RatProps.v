(** C47, C48, C49: rational numbers and dyadic numbers. *)
From Coq Require Import QArith.
From Verif Require Import Prelude SortModel RatModel RatSpec RatProofs RatProofs2 RatProofs3.
Local Open Scope Z_scope.

(** C47.  Whenever no intermediate overflows (the result is Some), sums, differences, products are exact and in lowest terms, for operands
    in lowest terms with denominators of any sign. *)
Lemma arith_exact x y z : reduced x -> reduced y ->
  (add x y = Some z -> reduced z /\ (value z == value x + value y)%Q) /\
  (sub x y = Some z -> reduced z /\ (value z == value x - value y)%Q) /\
  (mul x y = Some z -> reduced z /\ (value z == value x * value y)%Q).
Proof. intros Rx Ry. split; [|split]; [exact (addsub_ok false x y z Rx Ry)|exact (addsub_ok true x y z Rx Ry)|exact (mul_ok x y z Rx Ry)]. Qed.
Theorem C47_add_sub_mul_exact : forall x y z, reduced x -> reduced y ->
  (add x y = Some z -> reduced z /\ (value z == value x + value y)%Q) /\
  (sub x y = Some z -> reduced z /\ (value z == value x - value y)%Q) /\
  (mul x y = Some z -> reduced z /\ (value z == value x * value y)%Q).
Proof. exact arith_exact. Qed.
Print Assumptions C47_add_sub_mul_exact.
(** quotient by a non-zero number, construction from a numerator and a denominator, and negation are exact and canonical *)
Theorem C47_div_exact_canonical : forall x y z, reduced x -> reduced y -> fst y <> 0 -> 0 < snd x -> div x y = Some z -> canonical z /\ (value z == value x / value y)%Q.
Proof. exact div_ok. Qed.
Print Assumptions C47_div_exact_canonical.
Theorem C47_make_exact_canonical : forall n d z, d <> 0 -> make n d = Some z -> canonical z /\ (value z == value (n, d))%Q.
Proof. exact canon_ok. Qed.
Print Assumptions C47_make_exact_canonical.
Theorem C47_neg_exact_canonical : forall x z, snd x <> 0 -> neg x = Some z -> canonical z /\ (value z == - value x)%Q.
Proof. exact neg_ok. Qed.
Print Assumptions C47_neg_exact_canonical.
Theorem C47_eq_is_value_equality : forall x y, canonical x -> canonical y -> (eqb x y = true <-> (value x == value y)%Q).
Proof. exact eqb_ok. Qed.
Print Assumptions C47_eq_is_value_equality.
(** operands whose parts are below 2^31 in absolute value never overflow *)
Lemma no_overflow31 x y : small (2 ^ 31) x -> small (2 ^ 31) y -> snd x <> 0 -> snd y <> 0 ->
  (exists z, add x y = Some z) /\ (exists z, sub x y = Some z) /\ (exists z, mul x y = Some z) /\ (exists z, div x y = Some z).
Proof. intros Sx Sy Nx Ny. split; [apply addsub_total; assumption|]. split; [apply addsub_total; assumption|]. split; [apply mul_total; assumption|apply div_total; assumption]. Qed.
Theorem C47_no_overflow_below_2_31 : forall x y, small (2 ^ 31) x -> small (2 ^ 31) y -> snd x <> 0 -> snd y <> 0 ->
  (exists z, add x y = Some z) /\ (exists z, sub x y = Some z) /\ (exists z, mul x y = Some z) /\ (exists z, div x y = Some z).
Proof. exact no_overflow31. Qed.
Print Assumptions C47_no_overflow_below_2_31.
(** sums and products stay canonical (positive denominator) for non-negative operands.  Missing: negative operands, where it is false. *)
Theorem C47_add_mul_canonical_partial : forall x y z, canonical x -> canonical y -> 0 <= fst x -> 0 <= fst y ->
  (add x y = Some z -> canonical z) /\ (mul x y = Some z -> canonical z).
Proof. intros x y z Cx Cy Hx Hy. split; [exact (add_canonical x y z Cx Cy Hx Hy)|exact (mul_canonical x y z Cx Cy Hx Hy)]. Qed.
Print Assumptions C47_add_mul_canonical_partial.
(** -1/4 + -5/4 is represented as 3/-2, which == distinguishes from -3/2: math::gcd returns a negative divisor. *)
Theorem C47_add_canonical_refuted : exists x y z, canonical x /\ canonical y /\ add x y = Some z /\ ~ canonical z /\
  exists z', canonical z' /\ (value z == value z')%Q /\ eqb z z' = false.
Proof.
  exists (-1, 4), (-5, 4), (3, -2). split; [split; reflexivity|]. split; [split; reflexivity|]. split; [vm_compute; reflexivity|].
  split; [intros [H _]; cbn in H; lia|]. exists (-3, 2). split; [split; reflexivity|]. split; reflexivity.
Qed.
Print Assumptions C47_add_canonical_refuted.

(** C48: operator< decides the order of the values and terminates, for all i64 operands (INT_MIN excluded) with positive denominators;
    operator> as well, for canonical operands *)
Theorem C48_less_is_value_order : forall x y, small (2 ^ 63) x -> small (2 ^ 63) y -> 0 < snd x -> 0 < snd y ->
  exists b, lt x y = Some b /\ (b = true <-> (value x < value y)%Q).
Proof. exact lt_ok. Qed.
Print Assumptions C48_less_is_value_order.
Theorem C48_greater_is_value_order_partial : forall x y, small (2 ^ 63) x -> small (2 ^ 63) y -> canonical x -> canonical y ->
  exists b, gt x y = Some b /\ (b = true <-> (value y < value x)%Q).
Proof. exact gt_ok. Qed.
Print Assumptions C48_greater_is_value_order_partial.
(** with a positive but not reduced denominator (1/2 and 2/4) operator> says that equal values are ordered *)
Theorem C48_greater_unreduced_refuted : exists x y, 0 < snd x /\ 0 < snd y /\ (value x == value y)%Q /\ gt x y = Some true.
Proof. exists (1, 2), (2, 4). split; [reflexivity|]. split; [reflexivity|]. split; [reflexivity|]. vm_compute. reflexivity. Qed.
Print Assumptions C48_greater_unreduced_refuted.
(** and since sums can have a negative denominator, (-1/6 + -1/6) < 0 evaluates to false *)
Theorem C48_less_after_add_refuted : exists x y z, canonical x /\ canonical y /\ add x y = Some z /\ (value z < value (0%Z, 1%Z))%Q /\ lt z (0, 1) = Some false.
Proof.
  exists (-1, 6), (-1, 6), (1, -3). split; [split; reflexivity|]. split; [split; reflexivity|]. split; [vm_compute; reflexivity|]. split; [reflexivity|]. vm_compute. reflexivity.
Qed.
Print Assumptions C48_less_after_add_refuted.

(** C49: dyadic numbers.  Sums are exact when nothing overflows and, for equal powers, the sum does not cancel more than the power. *)
Theorem C49_dyadic_sum_exact_partial : forall x y, no_overflow x y -> (snd x = snd y -> fst x + fst y = 0 \/ ~ (2 ^ (snd x + 1) | fst x + fst y)) ->
  exists z, dadd x y = Some z /\ (dvalue z == dvalue x + dvalue y)%Q /\ 0 <= fst z < 2 ^ 64 /\ 0 <= snd z <= Z.max (snd x) (snd y).
Proof. exact dadd_ok. Qed.
Print Assumptions C49_dyadic_sum_exact_partial.
(** 1 + 1 = 1 / 2^255: the power underflows *)
Theorem C49_dyadic_sum_exact_refuted : no_overflow (1, 0) (1, 0) /\ dadd (1, 0) (1, 0) = Some (1, 255).
Proof. split; [cbn; lia|reflexivity]. Qed.
Print Assumptions C49_dyadic_sum_exact_refuted.
(** on the dyadic numbers of [0,1] in lowest terms all comparisons are those of the values *)
Lemma order_ok x y : unit_dyadic x -> unit_dyadic y ->
  (deq x y = true <-> (dvalue x == dvalue y)%Q) /\
  (exists b, dlt x y = Some b /\ (b = true <-> (dvalue x < dvalue y)%Q)) /\ (exists b, dle x y = Some b /\ (b = true <-> (dvalue x <= dvalue y)%Q)) /\
  (exists b, dge x y = Some b /\ (b = true <-> (dvalue y <= dvalue x)%Q)) /\ (exists b, dgt x y = Some b /\ (b = true <-> (dvalue y < dvalue x)%Q)) /\
  (exists b, sum_leq_1 x y = Some b /\ (b = true <-> (dvalue x + dvalue y <= 1)%Q)).
Proof.
  intros U1 U2. destruct (dord_ok x y U1 U2) as (A & B & C). split; [apply deq_ok; assumption|]. split; [apply dlt_ok; assumption|]. split; [exact A|]. split; [exact B|]. split; [exact C|]. apply sum_leq_ok; assumption.
Qed.
Theorem C49_dyadic_order_is_value_order : forall x y, unit_dyadic x -> unit_dyadic y ->
  (deq x y = true <-> (dvalue x == dvalue y)%Q) /\
  (exists b, dlt x y = Some b /\ (b = true <-> (dvalue x < dvalue y)%Q)) /\ (exists b, dle x y = Some b /\ (b = true <-> (dvalue x <= dvalue y)%Q)) /\
  (exists b, dge x y = Some b /\ (b = true <-> (dvalue y <= dvalue x)%Q)) /\ (exists b, dgt x y = Some b /\ (b = true <-> (dvalue y < dvalue x)%Q)) /\
  (exists b, sum_leq_1 x y = Some b /\ (b = true <-> (dvalue x + dvalue y <= 1)%Q)).
Proof. exact order_ok. Qed.
Print Assumptions C49_dyadic_order_is_value_order.
(** bisection of a proper interval: exact midpoint, again a unit dyadic in lowest terms, so bisection can be iterated *)
Theorem C49_bisect_exact : forall lo hi, unit_dyadic lo -> unit_dyadic hi -> snd lo <= 62 -> snd hi <= 62 -> (dvalue lo < dvalue hi)%Q ->
  exists mid, bisect (lo, hi) = Some ((lo, mid), (mid, hi)) /\ unit_dyadic mid /\ (dvalue mid == (dvalue lo + dvalue hi) / inject_Z 2)%Q /\ (dvalue lo < dvalue mid)%Q /\ (dvalue mid < dvalue hi)%Q.
Proof. exact bisect_ok. Qed.
Print Assumptions C49_bisect_exact.

Example C47_case : canonical (1, 6) /\ canonical (3, 10) /\ add (1, 6) (3, 10) = Some (7, 15) /\ div (1, 6) (-3, 10) = Some (-5, 9).
Proof. split; [split; reflexivity|]. split; [split; reflexivity|]. split; vm_compute; reflexivity. Qed.
Example C48_case : lt (-7, 3) (-16, 7) = Some true /\ gt (355, 113) (22, 7) = Some false.
Proof. split; vm_compute; reflexivity. Qed.
Example C49_case : bisect ((1, 2), (3, 3)) = Some (((1, 2), (5, 4)), ((5, 4), (3, 3))) /\ unit_dyadic (1, 2) /\ unit_dyadic (3, 3).
Proof. split; [reflexivity|]. split; repeat split; cbn; auto; lia. Qed.
