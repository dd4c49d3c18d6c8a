(** C11: TileVector addresses every (channel, element) at its own in-range slot. *)
From Verif Require Import Prelude VectorModel TileModel TileSpec TileProofs.

(** The buffer is allocated with count_tiles * L * nch slots; distinct (channel, element) pairs have distinct slots inside it,
    and going through the tile view reaches the same slot. *)
Theorem C11_addresses_distinct_in_range : forall L, 0 < L -> forall nch n c i c' i', c < nch -> i < n -> c' < nch -> i' < n ->
  addr L nch c i < count_tiles L n * L * nch /\ (addr L nch c i = addr L nch c' i' -> c = c' /\ i = i') /\
  addr L nch c i = tile_addr L nch (i / L) c (i mod L).
Proof. exact addresses. Qed.
Print Assumptions C11_addresses_distinct_in_range.

(** The channel ranges [offset, offset + size) reported for differently named properties are in range, disjoint and cover the channels. *)
Theorem C11_property_ranges_partition_channels : forall tags, NoDup (names tags) ->
  (forall n, In n (names tags) <-> exists o, prop_offset_from tags n 0 = Some o) /\
  (forall n o, prop_offset_from tags n 0 = Some o -> o + prop_size tags n <= channels tags) /\
  (forall n o n' o', prop_offset_from tags n 0 = Some o -> prop_offset_from tags n' 0 = Some o' -> n <> n' ->
     o + prop_size tags n <= o' \/ o' + prop_size tags n' <= o) /\
  (forall c, c < channels tags -> exists n o, prop_offset_from tags n 0 = Some o /\ o <= c < o + prop_size tags n).
Proof. exact property_ranges. Qed.
Print Assumptions C11_property_ranges_partition_channels.

(** Any history of writes, resize, clear, reset, append_channels, reorderTiles, copy and clone, every parallel loop performing its
    assignments in any order: no access leaves the allocation, exceptions are raised exactly when the table specification says,
    and every specified (channel, element) holds its value. *)
Theorem C11_tilevector_is_table : forall (A : Type) (zero : A) L, 0 < L -> forall tags n os b,
  NoDup (names tags) -> 0 < channels tags -> bruns zero L (mktab tags n (fun _ _ => None)) os b ->
  forall r, trun zero L (tv_ctor L tags n) os r ->
  exists t, r = Some t /\ ttags t = btags b /\ tsize t = bsize b /\ tnch t = channels (btags b) /\
    forall c i x, c < channels (btags b) -> i < bsize b -> bval b c i = Some x -> tv_get L t c i = Some (Some x).
Proof. exact @tile_table. Qed.
Print Assumptions C11_tilevector_is_table.
Theorem C11_step_outcome : forall (A : Type) (zero : A) L, 0 < L -> forall t b o r, trep L t b -> top_ok L b o -> tstep zero L t o r ->
  (throws L b o /\ r = Throw) \/ (~ throws L b o /\ exists t', r = Ok t' /\ trep L t' (bstep zero L b o)).
Proof. exact @tstep_ok. Qed.
Print Assumptions C11_step_outcome.
(** the executions quantified over exist *)
Theorem C11_every_operation_runs : forall (A : Type) (zero : A) L (t : tv A) o, exists r, tstep zero L t o r.
Proof. exact @tstep_total. Qed.
Print Assumptions C11_every_operation_runs.

(** Copying a TileVector without channels divides by zero in capacity(). *)
Theorem C11_copy_without_channels_refuted : forall L n, @tv_copy nat (tv_ctor L [] n) = None.
Proof. intros. unfold tv_copy, v_copy, tv_ctor, total_channels. cbn [fold_left tbuf v_ctor cells vsize tnch]. rewrite Nat.mul_0_r. reflexivity. Qed.
Print Assumptions C11_copy_without_channels_refuted.

(** A tile permutation that moves the partly filled last tile pushes live elements beyond size(): with three elements in tiles of two,
    swapping the tiles leaves the second element's value at no index below size(). *)
Definition three := [TSet 0 0 5; TSet 0 1 6; TSet 0 2 7; @TReorder nat true [1; 0]].
Theorem C11_reorder_partial_tile_drops_element_refuted : exists t,
  trun 0 2 (tv_ctor 2 [(9, 1)] 3) three (Some t) /\ tsize t = 3 /\ forall i, i < 3 -> tv_get 2 t 0 i <> Some (Some 6).
Proof.
  eexists. split.
  - unfold three. assert (R : forall t o q t' os r, tstep 0 2 t o q -> q = Ok t' -> trun 0 2 t' os r -> trun 0 2 t (o :: os) r)
      by (intros t o q t' os r S E T; subst; eapply R_ok; eassumption).
    do 3 (eapply R; [apply (S_set 0 2)|vm_compute; reflexivity|]).
    eapply R; [apply (S_reorder 0 2 _ true [1; 0] (reorder_transfers 2 true 1 2 [1; 0])); [reflexivity|apply Permutation_refl]|vm_compute; reflexivity|]. apply R_nil.
  - split; [reflexivity|]. intros i Hi. do 3 (destruct i as [|i]; [cbv; discriminate|]). lia.
Qed.
Print Assumptions C11_reorder_partial_tile_drops_element_refuted.

Example C11_case : let ops := [TSet 0 0 5; TSet 2 4 6; TAppend [(7, 1); (8, 2); (9, 1)]; TAppend [(7, 3)]; TResize 9; @TReorder nat true [1; 2; 0]; TClone] in
  exists b, bruns 0 4 (mktab [(9, 1); (7, 1); (4, 1)] 5 (fun _ _ => None)) ops b /\ btags b = [(9, 1); (7, 1); (4, 1); (8, 2)] /\
  bval b 0 4 = Some 5 /\ bval b 2 8 = Some 6 /\ bval b 4 4 = Some 0 /\ bval b 4 3 = None.
Proof.
  cbn zeta. eexists. split.
  - apply B_ok; [cbn; lia|cbn; tauto|]. apply B_ok; [cbn; lia|cbn; tauto|]. apply B_ok; [exact I| |].
    { cbn. intros [(c & [E|[E|[E|[]]]] & N)|[(c & [E|[E|[E|[]]]] & N)|[(c & [E|[E|[E|[E|[]]]]] & N)|[]]]]; inversion E; subst; congruence. }
    apply B_throw; [exact I|cbn; left; exists 1; split; [right; left; reflexivity|discriminate]|].
    apply B_ok; [exact I|cbn; tauto|]. apply B_ok; [cbn; intros _|cbn; lia|].
    { apply NoDup_Permutation; [repeat constructor; cbn; intuition discriminate|repeat constructor; cbn; intuition discriminate|cbn; tauto]. }
    apply B_ok; [exact I|cbn; tauto|]. apply B_nil.
  - cbv. repeat split; reflexivity.
Qed.
