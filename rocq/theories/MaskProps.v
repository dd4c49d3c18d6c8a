(** C04: bit_mask behaves as a set of indices below Size. *)
From Verif Require Import Prelude BitsModel MaskModel MaskSpec MaskProofs.

(** For any mask built by any program of API calls with in-range indices, where either Size is a multiple of 64 or no
    whole-mask "on"/toggle operation is used: every query answers as the denoted index set does. *)
Theorem C04_mask_is_index_set_partial : forall size p, in_range size p -> no_whole p \/ size mod 64 = 0 ->
  exists m, mrun size p = Some m /\
   (forall i, i < size -> isOn m i = Some (denotes p i)) /\
   countOn m = card (denotes p) size /\
   countOff size m = Z.of_nat (card (fun i => negb (denotes p i)) size) /\
   (forall k, k <= size -> k < 64 * word_count size -> countOffset m k = Some (card (denotes p) k)) /\
   findFirstOn size m = least_from (denotes p) 0 size /\
   findFirstOff size m = least_from (fun i => negb (denotes p i)) 0 size /\
   (forall s, s < size -> findNextOn size m s = least_from (denotes p) s size) /\
   (forall s, s < size -> findNextOff size m s = least_from (fun i => negb (denotes p i)) s size) /\
   (allOff m = true <-> forall i, i < size -> denotes p i = false) /\
   (forall q m', in_range size q -> no_whole q \/ size mod 64 = 0 -> mrun size q = Some m' ->
      (mask_eqb m m' = true <-> forall i, i < size -> denotes p i = denotes q i)).
Proof. exact mask_all. Qed.
Print Assumptions C04_mask_is_index_set_partial.

(** the whole-mask queries, exact for Size a positive multiple of 64 *)
Theorem C04_whole_queries_partial : forall size p, in_range size p -> size mod 64 = 0 -> 0 < size ->
  exists m, mrun size p = Some m /\
   (allOn m = true <-> forall i, i < size -> denotes p i = true) /\
   (forall b, isConstant m = Some b <-> forall i, i < size -> denotes p i = b).
Proof. exact mask_whole. Qed.
Print Assumptions C04_whole_queries_partial.

(** the abstract view of "least": it is the least member in [a, n), or n *)
Theorem C04_least_from_meaning : forall S a n, a <= n -> let r := least_from S a n in
  a <= r <= n /\ (forall j, a <= j < r -> S j = false) /\ (r < n -> S r = true).
Proof. exact least_spec. Qed.
Print Assumptions C04_least_from_meaning.

(** The restriction on Size is needed: the padding bits of the last word leak. *)
Theorem C04_padding_leaks_refuted :
  exists m, mrun 65 (PBool true) = Some m /\ countOn m = 128 /\ countOff 65 m = (-63)%Z.
Proof. eexists. split; [reflexivity|]. repeat split; vm_compute; reflexivity. Qed.
Print Assumptions C04_padding_leaks_refuted.
Theorem C04_equality_padding_refuted : exists m m', mrun 1 (PBool true) = Some m /\ mrun 1 (POn PEmpty 0) = Some m' /\
  (forall i, i < 1 -> denotes (PBool true) i = denotes (POn PEmpty 0) i) /\ mask_eqb m m' = false.
Proof.
  do 2 eexists. split; [reflexivity|]. split; [reflexivity|]. split; [|reflexivity]. intros i Hi. destruct i; [reflexivity|lia].
Qed.
Print Assumptions C04_equality_padding_refuted.
Theorem C04_all_on_missed_refuted : exists p m, in_range 2 p /\ no_whole p /\ mrun 2 p = Some m /\
  (forall i, i < 2 -> denotes p i = true) /\ allOn m = false.
Proof.
  exists (POn (POn PEmpty 0) 1). eexists. split; [cbn; lia|]. split; [exact I|]. split; [reflexivity|]. split; [|reflexivity].
  intros i Hi. destruct i as [|[|i]]; [reflexivity|reflexivity|lia].
Qed.
Print Assumptions C04_all_on_missed_refuted.
(** countOffset(Size) reads past the word array when Size is a multiple of 64 *)
Theorem C04_countOffset_end_refuted : exists m, mrun 64 PEmpty = Some m /\ countOffset m 64 = None.
Proof. eexists. split; reflexivity. Qed.
Print Assumptions C04_countOffset_end_refuted.

(** a non-trivial instance: two words, several operations *)
Example C04_case : exists m, mrun 70 (PXor (POn (POn PEmpty 3) 69) (POff (POn PEmpty 3) 4)) = Some m /\
  countOn m = 1 /\ findFirstOn 70 m = 69 /\ findNextOff 70 m 69 = 70.
Proof. eexists. split; [reflexivity|]. vm_compute. repeat split. Qed.
Example C04_case_hyps : in_range 70 (PXor (POn (POn PEmpty 3) 69) (POff (POn PEmpty 3) 4)) /\
  no_whole (PXor (POn (POn PEmpty 3) 69) (POff (POn PEmpty 3) 4)).
Proof. cbn. lia. Qed.
