(** C30: a bcht as a dictionary of distinct keys. *)
From Verif Require Import Prelude BchtModel BchtSpec BchtProofs BchtProofs2 BchtProofs3.
Local Open Scope nat_scope.

(** universal_hash for 32-bit keys (HashUtils.hpp 24-26), the default hash function, for the examples *)
Definition uhash (x y : N) (k : N) : N := ((N.lxor x k + y) mod 4294967296 mod 4294967291)%N.
Definition sentinel : N := 1061109567.
Notation ins := (insert_key N N.eqb sentinel 16 (uhash 0 0) (uhash 0 1) (uhash 0 2)).
Notation ins_all := (insert_all N N.eqb sentinel 16 (uhash 0 0) (uhash 0 1) (uhash 0 2)).
Notation qry := (query N N.eqb sentinel 16 (uhash 0 0) (uhash 0 1) (uhash 0 2)).
(** bcht{16}: 32 slots in two buckets, 35 chains *)
Definition small : table N := construct N sentinel 16 16 35.
Definition evens (n : nat) : list N := map (fun i => N.of_nat (2 * i)) (seq 0 n).

(** Partial (C30): hypotheses as collected in [reach] - nobody inserts the reserved key, no call and no resize hits the displacement limit,
    and a key is re-inserted only where the call really reports it as existing.  Then the table is the dictionary numbering its keys in
    order, however many keys have been displaced. *)
Theorem C30_dictionary_partial : forall K keqb sent B hf0 hf1 hf2, (forall a b : K, keqb a b = true <-> a = b) -> 0 < B ->
  forall t ks, reach K keqb sent B hf0 hf1 hf2 t ks -> dictionary K keqb sent B hf0 hf1 hf2 t ks.
Proof.
  intros K keqb sent B hf0 hf1 hf2 Hk HB t ks R. apply (holds_dictionary K keqb sent B hf0 hf1 hf2 Hk HB). eapply reach_holds; eauto.
Qed.
(** an insertion of a new key returns the next number or the failure token; it never loops forever or leaves the arrays *)
Theorem C30_new_key_gets_next_number_partial : forall K keqb sent B hf0 hf1 hf2, (forall a b : K, keqb a b = true <-> a = b) -> 0 < B ->
  forall t ks k o t', reach K keqb sent B hf0 hf1 hf2 t ks -> k <> sent -> ~ In k ks ->
  insert_key K keqb sent B hf0 hf1 hf2 t k = (o, t') -> o = Inserted (Z.of_nat (length ks)) \/ o = Failed.
Proof.
  intros K keqb sent B hf0 hf1 hf2 He HB t ks k o t' R Hk N E.
  destruct (holds_insert K keqb sent B hf0 hf1 hf2 He HB t ks k o t' (reach_holds K keqb sent B hf0 hf1 hf2 He HB t ks R) Hk N E) as [(-> & _)|(-> & _)]; auto.
Qed.
(** the failure token means that exactly one key, usually another one, has been dropped; the other answers are as after a success *)
Theorem C30_failure_drops_one_key : forall K keqb sent B hf0 hf1 hf2, (forall a b : K, keqb a b = true <-> a = b) -> 0 < B ->
  forall t ks k t', reach K keqb sent B hf0 hf1 hf2 t ks -> k <> sent -> ~ In k ks ->
  insert_key K keqb sent B hf0 hf1 hf2 t k = (Failed, t') ->
  exists v, In v (ks ++ [k]) /\ query K keqb sent B hf0 hf1 hf2 t' v = (-1)%Z
    /\ (forall i k', k' <> v -> nth_error (ks ++ [k]) i = Some k' -> query K keqb sent B hf0 hf1 hf2 t' k' = Z.of_nat i)
    /\ (forall k', k' <> sent -> ~ In k' (ks ++ [k]) -> query K keqb sent B hf0 hf1 hf2 t' k' = (-1)%Z).
Proof.
  intros K keqb sent B hf0 hf1 hf2 He HB t ks k t' R Hk N E. pose proof (reach_holds K keqb sent B hf0 hf1 hf2 He HB t ks R) as Hd.
  destruct (holds_insert K keqb sent B hf0 hf1 hf2 He HB t ks k _ t' Hd Hk N E) as [(X & _)|(_ & (v, vi) & D' & P & I)]; [discriminate|].
  pose proof (Permutation_map fst P) as Pk. rewrite numb_keys in Pk. cbn in Pk.
  assert (Nd : NoDup (v :: map fst D')).
  { eapply Permutation_NoDup. symmetry. exact Pk. apply (NoDup_Add (a := k) (l := ks)). apply Add_app with (l1 := ks) (l2 := []) (a := k) || idtac.
    rewrite <- (app_nil_r ks) at 1. apply Add_app. split; auto. destruct Hd as (I0 & _). pose proof (i_nodup _ _ _ _ _ _ _ _ I0) as Q. rewrite numb_keys in Q. exact Q. }
  apply NoDup_cons_iff in Nd. destruct Nd as (Nv & _).
  assert (Hv : In v (ks ++ [k])) by (eapply Permutation_in; [exact Pk|left; auto]).
  assert (Ns : ~ In sent (ks ++ [k])).
  { intros X. apply in_app_or in X. destruct X as [X|[X|[]]]; [|congruence]. destruct Hd as (I0 & _). apply (i_nosent _ _ _ _ _ _ _ _ I0). rewrite numb_keys. exact X. }
  exists v. split; auto. split; [|split].
  - apply (query_absent K keqb sent B hf0 hf1 hf2 He HB t' D' I); auto. intros ->. contradiction.
  - intros i k' Hk' X. apply (query_found K keqb sent B hf0 hf1 hf2 He HB t' D' I).
    assert (Y : In (k', Z.of_nat i) ((v, vi) :: D')). { eapply Permutation_in. symmetry. exact P. apply numb_in. rewrite Nat2Z.id. split; [lia|auto]. }
    destruct Y as [Y|Y]; auto. congruence.
  - intros k' H1 H2. apply (query_absent K keqb sent B hf0 hf1 hf2 He HB t' D' I); auto. intros X. apply H2. eapply Permutation_in. exact Pk. right. exact X.
Qed.
(** Partial (C30): the property for every sequence, repetitions included, as long as no more than bucket_size distinct keys share a bucket
    under the first hash function (then nothing is displaced). *)
Theorem C30_first_and_later_insertions_partial : forall K keqb sent B hf0 hf1 hf2, (forall a b : K, keqb a b = true <-> a = b) -> 0 < B ->
  forall cap maxc ks, 0 < cap -> ~ In sent ks -> fits K B hf0 (tnb K (construct K sent B cap maxc)) ks ->
  exists t, insert_all K keqb sent B hf0 hf1 hf2 (construct K sent B cap maxc) ks = (expected K keqb [] ks, t)
    /\ dictionary K keqb sent B hf0 hf1 hf2 t (firsts K keqb [] ks).
Proof.
  intros K keqb sent B hf0 hf1 hf2 He HB cap maxc ks Hc Ns Ft.
  destruct (insert_all_fits K keqb sent B hf0 hf1 hf2 He HB ks (construct K sent B cap maxc) [] ks) as (t & E & H & _); auto.
  - apply construct_holds; auto.
  - apply construct_primary.
  - intros x [[]|X]; exact X.
  - exists t. split; auto. apply (holds_dictionary K keqb sent B hf0 hf1 hf2 He HB). exact H.
Qed.
(** resize without a failed reinsertion: same dictionary, same numbers *)
Theorem C30_resize_keeps_dictionary_partial : forall K keqb sent B hf0 hf1 hf2, (forall a b : K, keqb a b = true <-> a = b) -> 0 < B ->
  forall t ks cap maxc os t', reach K keqb sent B hf0 hf1 hf2 t ks -> resize K keqb sent B hf0 hf1 hf2 t cap maxc = (os, t') ->
  ~ In Failed os ->
  dictionary K keqb sent B hf0 hf1 hf2 t' ks /\ tnb K t <= tnb K t' /\ (tnb K t * B < 2 * cap -> 2 * cap <= tnb K t' * B).
Proof.
  intros K keqb sent B hf0 hf1 hf2 He HB t ks cap maxc os t' R E NF.
  split. { apply C30_dictionary_partial; auto. eapply R_resize; eauto. }
  assert (Pc : cap <= padded B cap).
  { unfold padded. pose proof (Nat.div_mod (cap + B - 1) B ltac:(lia)) as X. pose proof (Nat.mod_upper_bound (cap + B - 1) B ltac:(lia)). nia. }
  assert (Rn : forall n u i os' u', reinsert K keqb sent B hf0 hf1 hf2 u i n = (os', u') -> tnb K u' = tnb K u).
  { assert (Ch : forall rest u y off key k idx no enq o u', chain K keqb sent B hf0 hf1 hf2 rest u y off key k idx no enq = (o, u') -> tnb K u' = tnb K u).
    { assert (Nm : forall u idx no t1 i1 n1, number K u idx no = (t1, i1, n1) -> tnb K t1 = tnb K u).
      { intros u idx no t1 i1 n1. unfold number. destruct (Z.eqb idx (-1)); intros Q; injection Q as <- <- <-; reflexivity. }
      induction rest as [|r IH]; intros u y off key k idx no enq o u'; cbn [chain];
      destruct (occurs K keqb k (bucket K B (tkeys K u) off)); try (intros Q; injection Q as <- <-; reflexivity);
      destruct (negb _);
      destruct (nth_error (tkeys K u) _) as [x|]; try (intros Q; injection Q as <- <-; reflexivity);
      try (destruct (keqb x sent)); try (intros Q; injection Q as <- <-; reflexivity);
      destruct (upd (tkeys K u) _ k) as [ks'|]; try (intros Q; injection Q as <- <-; reflexivity);
      destruct (number K (w_keys K u ks') idx no) as ((t1, i1), n1) eqn:En; apply Nm in En; cbn in En;
      try (destruct (nth_error (tinds K t1) _) as [z|]); try (intros Q; injection Q as <- <-; exact En);
      destruct (upd (tinds K t1) _ i1) as [is|]; try (intros Q; injection Q as <- <-; exact En);
      try (destruct enq; [destruct (upd (tact K _) _ key)|]; intros Q; injection Q as <- <-; exact En);
      intros Q; apply IH in Q; cbn in Q; congruence. }
    induction n as [|n IH]; intros u i os' u'; cbn [reinsert]. intros Q; injection Q as <- <-; reflexivity.
    destruct (nth_error (tact K u) i) as [k|]; [|intros Q; injection Q as <- <-; reflexivity].
    destruct (insert K keqb sent B hf0 hf1 hf2 u k (Z.of_nat i) false) as (o, u1) eqn:E1. destruct (reinsert K keqb sent B hf0 hf1 hf2 u1 (S i) n) as (os1, u2) eqn:E2.
    intros Q; injection Q as <- <-. rewrite (IH _ _ _ _ E2). unfold insert in E1. destruct (Nat.eqb _ 0). injection E1 as <- <-; reflexivity. eapply Ch; eauto. }
  unfold resize in E. destruct (padded_mult B HB cap) as (m & Pm & _).
  destruct (Nat.leb_spec (padded B cap * 2) (tnb K t * B)) as [H|H].
  - injection E as <- <-. split; lia.
  - apply Rn in E. cbn in E. rewrite Pm in E. replace (m * B * 2) with (m * 2 * B) in E by lia. rewrite Nat.div_mul in E by lia. rewrite E. split; nia.
Qed.

Lemma ins_all_snoc t l k : ins_all t (l ++ [k]) = (fst (ins_all t l) ++ [fst (ins (snd (ins_all t l)) k)], snd (ins (snd (ins_all t l)) k)).
Proof.
  revert t. induction l as [|a l IH]; intros t; cbn [app insert_all fst snd].
  - destruct (ins t k); reflexivity.
  - destruct (ins t a) as (o, t1). rewrite IH. destruct (ins_all t1 l). reflexivity.
Qed.
(** the tables built from the first n even numbers *)
Definition built (n : nat) : table N := snd (ins_all small (evens n)).
Lemma evens_reach : forall n, n <= 20 -> reach N N.eqb sentinel 16 (uhash 0 0) (uhash 0 1) (uhash 0 2) (built n) (evens n).
Proof.
  assert (Ev : forall n, evens (S n) = evens n ++ [N.of_nat (2 * n)]). { intros n. unfold evens. rewrite seq_S, map_app. reflexivity. }
  assert (All : forallb (fun n => match fst (ins (built n) (N.of_nat (2 * n))) with Inserted _ => true | _ => false end) (seq 0 20) = true) by (vm_compute; reflexivity).
  induction n as [|n IH]; intros Hn. apply R_new. lia.
  unfold built. rewrite Ev, ins_all_snoc. cbn [snd]. fold (built n). rewrite forallb_forall in All. specialize (All n ltac:(apply in_seq; lia)).
  destruct (ins (built n) (N.of_nat (2 * n))) as (o, t1) eqn:E. cbn [fst] in All. destruct o; try discriminate. cbn [snd].
  eapply R_insert. apply IH. lia. 3: exact E. unfold sentinel. lia.
  unfold evens. intros X. apply in_map_iff in X. destruct X as (i & Q & X). apply in_seq in X. lia.
Qed.
(** a run with displacements meeting the hypotheses: 20 keys for one bucket of 16 *)
Example C30_case : exists t, reach N N.eqb sentinel 16 (uhash 0 0) (uhash 0 1) (uhash 0 2) t (evens 20) /\ tkeys N t <> evens 20
  /\ map (qry t) (evens 20) = map Z.of_nat (seq 0 20) /\ qry t 5%N = (-1)%Z.
Proof.
  exists (built 20). split. apply evens_reach. lia. split. vm_compute. discriminate. split; vm_compute; reflexivity.
Qed.
Example C30_fits_case : fits N 16 (uhash 0 0) 2 [7; 4; 7; 9; 4; 8; 8]%N
  /\ fst (ins_all small [7; 4; 7; 9; 4; 8; 8]%N) = [Inserted 0; Inserted 1; Exists; Inserted 2; Exists; Inserted 3; Exists]
  /\ firsts N N.eqb [] [7; 4; 7; 9; 4; 8; 8]%N = [7; 4; 9; 8]%N.
Proof.
  split. 2: vm_compute; auto.
  intros b l N H. apply Nat.le_trans with (length [7; 4; 7; 9; 4; 8; 8]%N). apply NoDup_incl_length; auto. intros k X. apply H. exact X. cbn. lia.
Qed.

(** Finding: insert looks for the key only in its first bucket, so re-inserting a key that has been displaced is not reported as existing:
    the key is stored a second time under a second number.  bcht{16} with the default bucket size and universal_hash: 17 keys, then the
    second of them again. *)
Theorem C30_reinsertion_refuted : exists t t',
  reach N N.eqb sentinel 16 (uhash 0 0) (uhash 0 1) (uhash 0 2) t (evens 17) /\ qry t 2%N = 1%Z
  /\ ins t 2%N = (Inserted 17, t') /\ qry t' 2%N = 17%Z /\ size N t' = 18 /\ nth_error (tact N t') 1 = Some 2%N /\ nth_error (tact N t') 17 = Some 2%N.
Proof.
  exists (built 17), (snd (ins (built 17) 2%N)). split. apply evens_reach. lia. split. vm_compute. reflexivity.
  split. vm_compute. reflexivity. repeat split; vm_compute; reflexivity.
Qed.
(** Finding: a later insertion can make a key disappear that had been inserted successfully.  32 slots, hash functions that send the even
    numbers to the first bucket, and 17 even keys: the last call returns the failure token, its own key is found, another one is not. *)
Theorem C30_lost_key_refuted : exists t t' v,
  insert_all N N.eqb sentinel 16 (uhash 0 0) (uhash 0 2) (uhash 0 4) small (evens 16) = (map (fun i => Inserted (Z.of_nat i)) (seq 0 16), t)
  /\ insert_key N N.eqb sentinel 16 (uhash 0 0) (uhash 0 2) (uhash 0 4) t 32%N = (Failed, t')
  /\ In v (evens 16) /\ query N N.eqb sentinel 16 (uhash 0 0) (uhash 0 2) (uhash 0 4) t v <> (-1)%Z
  /\ query N N.eqb sentinel 16 (uhash 0 0) (uhash 0 2) (uhash 0 4) t' v = (-1)%Z
  /\ query N N.eqb sentinel 16 (uhash 0 0) (uhash 0 2) (uhash 0 4) t' 32%N = 16%Z.
Proof.
  eexists. eexists. exists 22%N. split. vm_compute. reflexivity. split. vm_compute. reflexivity. split. unfold evens. apply in_map_iff. exists 11. split; [reflexivity|apply in_seq; lia].
  split. vm_compute. discriminate. split; vm_compute; reflexivity.
Qed.
(** Finding: failed insertions use up numbers, so a later successful insertion may write activeKeys beyond its end (bucket size 2, 8 slots). *)
Theorem C30_active_keys_overrun_refuted : exists ks, NoDup ks /\ (forall k, In k ks -> k <> sentinel)
  /\ In OutOfRange (fst (insert_all N N.eqb sentinel 2 (uhash 0 0) (uhash 0 1) (uhash 0 3) (construct N sentinel 2 4 21) ks)).
Proof.
  exists [0; 4; 8; 12; 16; 20; 24; 28; 1]%N. split; [|split].
  - repeat constructor; cbn; intuition discriminate.
  - intros k X. cbn in X. unfold sentinel. intuition (subst; discriminate).
  - vm_compute. auto 20.
Qed.
(** Finding: the key 0x3f3f3f3f is reported as existing by an empty table and is not stored; put into a full bucket it leaves a hole that
    makes the next insertion into that bucket loop forever. *)
Theorem C30_reserved_key_refuted :
  ins small sentinel = (Exists, small)
  /\ exists ks k, NoDup (ks ++ [k]) /\ fst (ins (snd (ins_all small ks)) k) = Spins.
Proof.
  split. vm_compute. reflexivity.
  exists (map (fun i => N.of_nat (2 * i + 1)) (seq 0 16) ++ [sentinel]), 33%N. split. 2: vm_compute; reflexivity.
  vm_compute. repeat constructor; cbn; intuition discriminate.
Qed.
Print Assumptions C30_dictionary_partial.
Print Assumptions C30_new_key_gets_next_number_partial.
Print Assumptions C30_failure_drops_one_key.
Print Assumptions C30_first_and_later_insertions_partial.
Print Assumptions C30_resize_keeps_dictionary_partial.
Print Assumptions C30_reinsertion_refuted.
Print Assumptions C30_lost_key_refuted.
Print Assumptions C30_active_keys_overrun_refuted.
Print Assumptions C30_reserved_key_refuted.
