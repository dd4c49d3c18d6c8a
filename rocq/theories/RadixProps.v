(** C20, C21: radix sorts. *)
From Coq Require Import Sorted.
From Verif Require Import Prelude SortModel SortSpec SortProofs RadixModel RadixSpec RadixProofs.

(** C20: over bits [s, e) the result is the stable sort of the input by those bits, whatever the second buffer holds. *)
Theorem C20_seq_radix_sort_stable : forall (V : Type) w sgn s e (inp tmp : list (Z * V)), 0 < w -> s <= e <= w -> length tmp = length inp ->
  (forall x, In x inp -> key_ok w sgn (fst x)) ->
  exists out, radix_sort w sgn s e inp tmp = Some out /\ stable_sort_of (by_bits w sgn s e) inp out.
Proof. exact @radix_sort_ok. Qed.
Print Assumptions C20_seq_radix_sort_stable.

(** over the full width it is the stable sort by numeric value, for unsigned and signed keys *)
Lemma full_width {V} w sgn (inp tmp : list (Z * V)) : 0 < w -> length tmp = length inp -> (forall x, In x inp -> key_ok w sgn (fst x)) ->
  exists out, radix_sort w sgn 0 w inp tmp = Some out /\ stable_sort_of by_key inp out.
Proof.
  intros Hw Lt Hk. destruct (radix_sort_ok w sgn 0 w inp tmp Hw ltac:(lia) Lt Hk) as (out & E & S). exists out. split; [exact E|].
  eapply by_bits_full; eassumption.
Qed.
Theorem C20_seq_radix_sort_numeric : forall (V : Type) w sgn (inp tmp : list (Z * V)), 0 < w -> length tmp = length inp ->
  (forall x, In x inp -> key_ok w sgn (fst x)) ->
  exists out, radix_sort w sgn 0 w inp tmp = Some out /\ stable_sort_of by_key inp out.
Proof. exact @full_width. Qed.
Print Assumptions C20_seq_radix_sort_numeric.

(** C21: every execution of the OpenMP version (any thread count, any order of the scattered stores) ends with the result of the
    sequential version, and there is an execution. *)
Lemma swo_bits {V} w sgn s e : strict_weak_order (@by_bits V w sgn s e).
Proof.
  unfold by_bits. split; [|split].
  - intro x. apply Z.ltb_irrefl.
  - intros x y z. rewrite !Z.ltb_lt. lia.
  - intros x y z. rewrite !Z.ltb_lt. lia.
Qed.
Lemma same_result {V} nths w sgn s e (inp tmp tmp' : list (Z * V)) : 0 < nths -> 0 < w -> s <= e <= w -> length tmp = length inp -> length tmp' = length inp ->
  (forall x, In x inp -> key_ok w sgn (fst x)) ->
  (exists res, omp_radix_sort w sgn nths s e inp tmp res) /\
  forall res, omp_radix_sort w sgn nths s e inp tmp res -> exists out, res = Some out /\ radix_sort w sgn s e inp tmp' = Some out /\ stable_sort_of (by_bits w sgn s e) inp out.
Proof.
  intros Hn Hw He L L' Hk. split; [apply omp_radix_sort_total|]. intros res O.
  destruct (omp_radix_sort_ok nths w sgn s e inp tmp res Hn Hw He L Hk O) as (out & -> & S).
  destruct (radix_sort_ok w sgn s e inp tmp' Hw He L' Hk) as (out' & E & S'). exists out. split; [reflexivity|]. split; [|exact S].
  rewrite E. f_equal. eapply SS_unique; [apply swo_bits|exact S'|exact S].
Qed.
Theorem C21_omp_radix_sort_equals_seq : forall (V : Type) nths w sgn s e (inp tmp tmp' : list (Z * V)), 0 < nths -> 0 < w -> s <= e <= w ->
  length tmp = length inp -> length tmp' = length inp -> (forall x, In x inp -> key_ok w sgn (fst x)) ->
  (exists res, omp_radix_sort w sgn nths s e inp tmp res) /\
  forall res, omp_radix_sort w sgn nths s e inp tmp res ->
    exists out, res = Some out /\ radix_sort w sgn s e inp tmp' = Some out /\ stable_sort_of (by_bits w sgn s e) inp out.
Proof. exact @same_result. Qed.
Print Assumptions C21_omp_radix_sort_equals_seq.

(** a concrete case: signed 16-bit keys, an incomplete last digit for the 12-bit range *)
Example C20_case : radix_sort 16 true 0 16 [(3, 0); (-1, 1); (-300, 2); (3, 3); (1000, 4); (-1, 5)]%Z (repeat (0%Z, 0%Z) 6)
  = Some [(-300, 2); (-1, 1); (-1, 5); (3, 0); (3, 3); (1000, 4)]%Z.
Proof. vm_compute. reflexivity. Qed.
Example C20_case_bits : radix_sort 16 false 4 12 [(256, 0); (65295, 1); (17, 2); (4097, 3)]%Z (repeat (0%Z, 0%Z) 4)
  = Some [(4097, 3); (17, 2); (256, 0); (65295, 1)]%Z.
Proof. vm_compute. reflexivity. Qed.
