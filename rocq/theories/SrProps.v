(** C98: the preset semirings satisfy the semiring laws. *)
From Verif Require Import Prelude ItModel SrModel SrSpec SrProofs.
Open Scope Z_scope.

(** the four exact structures are semirings; products only on non-negative numbers *)
Theorem C98_exact :
  laws anything (xadd Z.min) (xmul Z.add) None (Some 0) /\ laws anything (xadd Z.max) (xmul Z.add) None (Some 0) /\
  laws nonnegative (xadd Z.min) (xmul Z.mul) None (Some 1) /\ laws nonnegative (xadd Z.max) (xmul Z.mul) None (Some 1).
Proof.
  repeat split; unfold anything, nonnegative; intros;
    repeat match goal with x : option Z |- _ => destruct x end; cbn [xadd xmul] in *;
    first [exact Logic.I | reflexivity | lia | nia | f_equal; first [lia | ring | rewrite Z.mul_min_distr_nonneg_l by assumption; reflexivity | rewrite Z.mul_max_distr_nonneg_l by assumption; reflexivity]].
Qed.
Print Assumptions C98_exact.

(** on a type, add and multiply are those of the exact structure as long as the exact result is representable and is not the number standing for infinity *)
Theorem C98_min_partial : forall t x y, 1 <= bits t -> codable t (hi t) x -> codable t (hi t) y ->
  (forall c, c = min_plus \/ c = min_times -> identity c t = code (hi t) None /\ value_type c t = t /\ add c t (code (hi t) x) [code (hi t) y] = Some (code (hi t) (xadd Z.min x y))) /\
  (codable t (hi t) (xmul Z.add x y) -> multiply min_plus t (code (hi t) x) (code (hi t) y) = Some (code (hi t) (xmul Z.add x y))) /\
  (codable t (hi t) (xmul Z.mul x y) -> multiply min_times t (code (hi t) x) (code (hi t) y) = Some (code (hi t) (xmul Z.mul x y))).
Proof.
  intros t x y B X Y. pose proof (lo_hi t B) as L. split; [|split].
  - intros c C. assert (I : identity c t = hi t) by (destruct C as [-> | ->]; apply numeric_max_hi; exact B). split; [exact I|]. split; [destruct C as [-> | ->]; reflexivity|].
    replace (add c t (code (hi t) x) [code (hi t) y]) with (Some (min_pack t [code (hi t) x; code (hi t) y])) by (destruct C as [-> | ->]; reflexivity).
    rewrite min_two; [|exact B| |]; [f_equal| |]; unfold codable, code, xadd, fits in *; destruct x, y; lia.
  - intros R. unfold multiply, identity. rewrite (numeric_max_hi t B). apply mul_for_code; assumption.
  - intros R. unfold multiply, identity. rewrite (numeric_max_hi t B). apply mul_for_code; assumption.
Qed.
Print Assumptions C98_min_partial.
Theorem C98_max_partial : forall t x y, 1 <= bits t -> codable t (lo t) x -> codable t (lo t) y ->
  (forall c, c = max_plus \/ c = max_times -> identity c t = code (lo t) None /\ value_type c t = t /\ add c t (code (lo t) x) [code (lo t) y] = Some (code (lo t) (xadd Z.max x y))) /\
  (codable t (lo t) (xmul Z.add x y) -> multiply max_plus t (code (lo t) x) (code (lo t) y) = Some (code (lo t) (xmul Z.add x y))) /\
  (codable t (lo t) (xmul Z.mul x y) -> multiply max_times t (code (lo t) x) (code (lo t) y) = Some (code (lo t) (xmul Z.mul x y))).
Proof.
  intros t x y B X Y. pose proof (lo_hi t B) as L. split; [|split].
  - intros c C. assert (I : identity c t = lo t) by (destruct C as [-> | ->]; apply numeric_lowest_lo; exact B). split; [exact I|]. split; [destruct C as [-> | ->]; reflexivity|].
    replace (add c t (code (lo t) x) [code (lo t) y]) with (Some (max_pack t [code (lo t) x; code (lo t) y])) by (destruct C as [-> | ->]; reflexivity).
    rewrite max_two; [|exact B| |]; [f_equal| |]; unfold codable, code, xadd, fits in *; destruct x, y; lia.
  - intros R. unfold multiply, identity. rewrite (numeric_lowest_lo t B). apply mul_for_code; assumption.
  - intros R. unfold multiply, identity. rewrite (numeric_lowest_lo t B). apply mul_for_code; assumption.
Qed.
Print Assumptions C98_max_partial.

(** add of any number of arguments is their smallest, their largest *)
Theorem C98_packs : forall t a args, 1 <= bits t -> (forall x, In x (a :: args) -> fits t x) ->
  (forall c, c = min_plus \/ c = min_times -> exists m, add c t a args = Some m /\ is_min (a :: args) m) /\
  (forall c, c = max_plus \/ c = max_times -> exists m, add c t a args = Some m /\ is_max (a :: args) m).
Proof.
  intros t a args B F. split; intros c C.
  - exists (min_pack t (a :: args)). split; [destruct C as [-> | ->]; reflexivity|apply pack_min; assumption].
  - exists (max_pack t (a :: args)). split; [destruct C as [-> | ->]; reflexivity|apply pack_max; assumption].
Qed.
Print Assumptions C98_packs.

(** boolean: on any numbers, add is 1 exactly if some argument is not zero, multiply exactly if both are not *)
Theorem C98_boolean : forall t a b args, identity boolean t = 0 /\
  add boolean t a args = Some (if List.Exists_dec (fun x => x <> 0) (a :: args) (fun x => match Z.eq_dec x 0 with left e => right (fun n => n e) | right n => left n end) then 1 else 0) /\
  (multiply boolean t a b = Some 1 <-> a <> 0 /\ b <> 0) /\ (multiply boolean t a b = Some 0 <-> a = 0 \/ b = 0).
Proof.
  intros t a b args. split; [reflexivity|]. split.
  - unfold add, or_pack. f_equal. destruct (Exists_dec _ _ _) as [E|E]; destruct (existsb _ _) eqn:X; try reflexivity; exfalso.
    + apply Exists_exists in E. destruct E as (x & I & N). assert (existsb (fun x => negb (x =? 0)) (a :: args) = true) by (apply existsb_exists; exists x; split; [exact I|]; apply negb_true_iff, Z.eqb_neq; exact N). congruence.
    + apply E. apply existsb_exists in X. destruct X as (x & I & N). apply Exists_exists. exists x. split; [exact I|]. apply negb_true_iff, Z.eqb_neq in N. exact N.
  - unfold multiply. destruct (Z.eqb_spec a 0), (Z.eqb_spec b 0); cbn; (split; split; [intros H|intros H|intros H|intros H]); try discriminate H; try reflexivity; try tauto; try (destruct H; congruence).
Qed.
Print Assumptions C98_boolean.

(** plus_times over int: exact while the result fits *)
Theorem C98_plus_times_partial : forall a b, let t := Ity true 32 in
  (fits t (a + b) -> add plus_times t a [b] = Some (a + b)) /\ (fits t (a * b) -> multiply plus_times t a b = Some (a * b)).
Proof.
  intros a b t. split; intros F; unfold add, multiply, sum_pack, obind; rewrite (arith_fits t _ F); f_equal; apply (conv_fits (Ity true 32)); [cbn; lia|exact F|cbn; lia|exact F].
Qed.
Print Assumptions C98_plus_times_partial.
(** over 64 bit integers every answer is cut to 32 bits: 0 is not neutral for add, 1 not for multiply *)
Theorem C98_plus_times_refuted : let t := Ity true 64 in exists a, fits t a /\ add plus_times t a [identity plus_times t] <> Some a /\ multiply plus_times t 1 a <> Some a.
Proof. exists (2 ^ 32). unfold fits. repeat split; vm_compute; congruence. Qed.
Print Assumptions C98_plus_times_refuted.

(** min_plus over int is not associative although nothing overflows: a finite sum that reaches the largest int becomes infinite *)
Theorem C98_associative_refuted : let t := Ity true 32 in exists a b c ab bc u v, fits t a /\ fits t b /\ fits t c /\ a <> hi t /\ b <> hi t /\ c <> hi t /\
  multiply min_plus t a b = Some ab /\ multiply min_plus t ab c = Some u /\ multiply min_plus t b c = Some bc /\ multiply min_plus t a bc = Some v /\ u <> v.
Proof. exists (2 ^ 31 - 2), 1, (-5), (2 ^ 31 - 1), (-4), (2 ^ 31 - 1), (2 ^ 31 - 6). unfold fits. repeat split; vm_compute; congruence. Qed.
Print Assumptions C98_associative_refuted.
(** over unsigned int a sum of large distances wraps to a small one; over int it is undefined *)
Theorem C98_overflow_refuted :
  (exists a b c, fits (Ity false 32) a /\ fits (Ity false 32) b /\ a <> hi (Ity false 32) /\ b <> hi (Ity false 32) /\ multiply min_plus (Ity false 32) a b = Some c /\ c < Z.min a b) /\
  (exists a b, fits (Ity true 32) a /\ fits (Ity true 32) b /\ a <> hi (Ity true 32) /\ b <> hi (Ity true 32) /\ multiply min_plus (Ity true 32) a b = None).
Proof. split; [exists (2 ^ 32 - 2), (2 ^ 32 - 3), (2 ^ 32 - 5)|exists (2 ^ 31 - 2), (2 ^ 31 - 2)]; unfold fits; repeat split; vm_compute; congruence. Qed.
Print Assumptions C98_overflow_refuted.
(** min_times and max_times do not distribute with a negative factor *)
Theorem C98_distributive_refuted : let t := Ity true 32 in forall cs, cs = min_times \/ cs = max_times -> exists a b c s p q r u,
  add cs t b [c] = Some s /\ multiply cs t a s = Some p /\ multiply cs t a b = Some q /\ multiply cs t a c = Some r /\ add cs t q [r] = Some u /\ p <> u.
Proof.
  intros t cs [-> | ->]; exists (-1), 1, 2; [exists 1, (-1), (-1), (-2), (-2)|exists 2, (-2), (-1), (-2), (-1)]; repeat split; vm_compute; congruence.
Qed.
Print Assumptions C98_distributive_refuted.
(** the boolean semiring over int: 0 is not neutral, 0 + 5 is 1 *)
Theorem C98_boolean_refuted : exists t a, fits t a /\ add boolean t (identity boolean t) [a] <> Some a.
Proof. exists (Ity true 32), 5. unfold fits. repeat split; vm_compute; congruence. Qed.
Print Assumptions C98_boolean_refuted.

(** shortest paths over int: the infinite distance is kept, a finite one is summed and compared *)
Example C98_ex : let t := Ity true 32 in codable t (hi t) (Some 7) /\ codable t (hi t) (xmul Z.add (Some 7) (Some (-3))) /\ nonnegative (Some 7) /\
  multiply min_plus t (identity min_plus t) (-3) = Some (2 ^ 31 - 1) /\ multiply min_plus t 7 (-3) = Some 4 /\ add min_plus t 9 [4; identity min_plus t; 6] = Some 4 /\
  multiply max_times (Ity true 64) (identity max_times (Ity true 64)) 0 = Some (- 2 ^ 63) /\ add max_plus (Ity false 8) 3 [200; 17] = Some 200 /\ add boolean t 0 [0; 3] = Some 1.
Proof. unfold codable, fits, nonnegative, xmul. repeat split; vm_compute; congruence. Qed.

(** the sum and product monoids on any number of arguments: a signed answer is exact, and there is one if the sums of all tails fit; an unsigned answer is modular *)
Theorem C98_sums : forall t a args, (forall x, In x (a :: args) -> fits t x) ->
  (sgn t = true -> forall s, sum_pack t a args = Some s -> s = total (a :: args)) /\
  (sgn t = true -> forall s, prod_pack t a args = Some s -> s = product (a :: args)) /\
  ((forall p q, a :: args = p ++ q -> q <> [] -> fits t (total q)) -> sum_pack t a args = Some (total (a :: args))) /\
  ((forall p q, a :: args = p ++ q -> q <> [] -> fits t (product q)) -> prod_pack t a args = Some (product (a :: args))) /\
  (sgn t = false -> sum_pack t a args = Some (total (a :: args) mod 2 ^ bits t) /\ prod_pack t a args = Some (product (a :: args) mod 2 ^ bits t)).
Proof.
  intros t a args F. split; [intros S; apply sum_signed; exact S|]. split; [intros S; apply prod_signed; exact S|]. split; [apply sum_defined|]. split; [apply prod_defined|].
  intros S. split; [apply sum_unsigned|apply prod_unsigned]; assumption.
Qed.
Print Assumptions C98_sums.
(** the conjunction monoid *)
Theorem C98_and : forall args, (and_pack args = 1 <-> forall x, In x args -> x <> 0) /\ (and_pack args = 0 <-> exists x, In x args /\ x = 0).
Proof.
  intros args. unfold and_pack. induction args as [|a r (I1 & I0)]; cbn [forallb].
  - split; split; [intros _ x []|reflexivity|discriminate|intros (x & [] & _)].
  - destruct (Z.eqb_spec a 0) as [E|E]; cbn [negb andb].
    + split; split; [discriminate|intros H; exfalso; exact (H a (or_introl eq_refl) E)|intros _; exists a; split; [now left|exact E]|reflexivity].
    + split; split.
      * intros H x [<-|X]; [exact E|apply I1; assumption].
      * intros H. apply I1. intros x X. apply H. now right.
      * intros H. apply I0 in H. destruct H as (x & X & Z). exists x. split; [now right|exact Z].
      * intros (x & [<-|X] & Z); [contradiction|]. apply I0. exists x. split; assumption.
Qed.
Print Assumptions C98_and.
Example C98_sums_ex : sum_pack (Ity true 8) 100 [20; -30] = Some 90 /\ sum_pack (Ity true 8) (-30) [100; 90] = None /\ sum_pack (Ity false 8) 200 [100; 3] = Some 47 /\
  prod_pack (Ity true 8) 5 [5; -5] = Some (-125) /\ prod_pack (Ity false 8) 20 [20] = Some 144 /\ and_pack [3; -1] = 1 /\ and_pack [3; 0] = 0.
Proof. vm_compute. repeat split. Qed.
