(** Queries, histories and resize of the bucketed cuckoo table. *)
From Verif Require Import Prelude BchtModel BchtSpec BchtProofs.
Local Open Scope nat_scope.

Lemma nth_error_combine_seq {A} (ks : list A) : forall n i, nth_error (combine ks (map Z.of_nat (seq n (length ks)))) i
  = option_map (fun k => (k, Z.of_nat (n + i))) (nth_error ks i).
Proof.
  induction ks as [|k ks IH]; intros n [|i]; cbn; auto. rewrite Nat.add_0_r. reflexivity.
  rewrite IH. destruct (nth_error ks i); cbn; auto. do 3 f_equal. lia.
Qed.
(** the numbered list of keys *)
Definition numb {A} (ks : list A) : list (A * Z) := combine ks (map Z.of_nat (seq 0 (length ks))).
Lemma numb_in {A} (ks : list A) k i : In (k, i) (numb ks) <-> (0 <= i)%Z /\ nth_error ks (Z.to_nat i) = Some k.
Proof.
  unfold numb. split.
  - intros H. apply In_nth_error in H. destruct H as (n & H). rewrite nth_error_combine_seq in H. destruct (nth_error ks n) eqn:E; [|discriminate].
    cbn in H. injection H as <- <-. split. lia. rewrite Nat2Z.id. exact E.
  - intros (H & E). apply nth_error_In with (n := Z.to_nat i). rewrite nth_error_combine_seq, E. cbn. do 2 f_equal. lia.
Qed.
Lemma numb_app {A} (ks : list A) k : numb (ks ++ [k]) = numb ks ++ [(k, Z.of_nat (length ks))].
Proof.
  apply nth_error_ext. intros i. unfold numb. rewrite nth_error_combine_seq.
  assert (L : length (combine ks (map Z.of_nat (seq 0 (length ks)))) = length ks) by (rewrite combine_length, map_length, seq_length; lia).
  destruct (Nat.lt_ge_cases i (length ks)) as [H|H].
  - rewrite !nth_error_app1 by (rewrite ?L; auto). rewrite nth_error_combine_seq. reflexivity.
  - rewrite !nth_error_app2 by (rewrite ?L; auto). rewrite L. destruct (i - length ks) as [|m] eqn:E; cbn.
    do 3 f_equal. lia. destruct m; reflexivity.
Qed.
Lemma numb_keys {A} (ks : list A) : map fst (numb ks) = ks.
Proof.
  apply nth_error_ext. intros i. unfold numb. rewrite nth_error_map, nth_error_combine_seq. destruct (nth_error ks i); reflexivity.
Qed.
Lemma numb_length {A} (ks : list A) : length (numb ks) = length ks.
Proof. rewrite <- (numb_keys ks) at 2. rewrite map_length. reflexivity. Qed.

Section P.
  Variable K : Type.
  Variable keqb : K -> K -> bool.
  Variable sent : K.
  Variable B : nat.
  Variables hf0 hf1 hf2 : K -> N.
  Hypothesis keqb_ok : forall a b, keqb a b = true <-> a = b.
  Hypothesis Bpos : 0 < B.

  Notation table := (table K).
  Notation inv := (inv K sent B hf0 hf1 hf2).
  Notation kat := (kat K B).
  Notation iat := (iat K B).
  Notation insert_key := (insert_key K keqb sent B hf0 hf1 hf2).
  Notation insert := (insert K keqb sent B hf0 hf1 hf2).
  Notation query := (query K keqb sent B hf0 hf1 hf2).
  Notation bucket := (bucket K B).

  Lemma locate_spec k l : match locate K keqb k l with Some i => nth_error l i = Some k | None => ~ In k l end.
  Proof.
    induction l as [|x l IH]; cbn; auto. destruct (keqb k x) eqn:E.
    - apply keqb_ok in E. subst. reflexivity.
    - destruct (locate K keqb k l) as [i|]; cbn. exact IH. intros [->|X]; auto. rewrite (proj2 (keqb_ok k k) eq_refl) in E. discriminate.
  Qed.

  Section Q.
    Variables (t : table) (D : list (K * Z)).
    Hypothesis I : inv t D.
    Let full := full K sent B t.

    Lemma round_hit k b j i offs : k <> sent -> b < tnb K t -> j < B -> kat t b j = Some k -> iat t b j = Some i ->
      rounds K keqb sent B t k (b * B :: offs) = i.
    Proof.
      intros Hk Hb Hj E Ei. cbn [rounds]. pose proof (locate_spec k (bucket (tkeys K t) (b * B))) as L.
      destruct (locate K keqb k (bucket (tkeys K t) (b * B))) as [j'|].
      - assert (j' < B). { erewrite <- (bucket_length K B Bpos _ (tnb K t) b). eapply nth_error_some_lt. exact L. apply (i_lk _ _ _ _ _ _ _ _ I). exact Hb. }
        rewrite bucket_nth in L by auto. destruct (i_uniq _ _ _ _ _ _ _ _ I b j b j' k Hb Hj Hb H Hk E L) as (_ & <-).
        apply nth_error_nth. exact Ei.
      - exfalso. apply L. apply (in_bucket K sent B hf0 hf1 hf2 Bpos t D I b k Hb). eauto.
    Qed.
    Lemma round_miss k b offs : b < tnb K t -> (forall j, j < B -> kat t b j <> Some k) ->
      rounds K keqb sent B t k (b * B :: offs) = (-1)%Z /\ ~ full b \/ rounds K keqb sent B t k (b * B :: offs) = rounds K keqb sent B t k offs /\ full b.
    Proof.
      intros Hb N. cbn [rounds]. pose proof (locate_spec k (bucket (tkeys K t) (b * B))) as L.
      destruct (locate K keqb k (bucket (tkeys K t) (b * B))) as [j'|].
      - exfalso. assert (j' < B). { erewrite <- (bucket_length K B Bpos _ (tnb K t) b). eapply nth_error_some_lt. exact L. apply (i_lk _ _ _ _ _ _ _ _ I). exact Hb. }
        rewrite bucket_nth in L by auto. exact (N _ H L).
      - pose proof (load_full K keqb sent B hf0 hf1 hf2 keqb_ok Bpos t D I b Hb) as F. fold full in F.
        pose proof (load_le K keqb sent B Bpos (bucket (tkeys K t) (b * B))) as Ll.
        rewrite (bucket_length K B Bpos _ (tnb K t) b (i_lk _ _ _ _ _ _ _ _ I) Hb) in Ll.
        destruct (Nat.ltb_spec (load K keqb sent (bucket (tkeys K t) (b * B))) B) as [H|H].
        + left. split; auto. intros X. apply F in X. lia.
        + right. split; auto. apply F. lia.
    Qed.
    Lemma bucket_dec k b : b < tnb K t -> (exists j, j < B /\ kat t b j = Some k) \/ (forall j, j < B -> kat t b j <> Some k).
    Proof.
      intros Hb. destruct (occurs K keqb k (bucket (tkeys K t) (b * B))) eqn:E.
      - left. apply (occurs_iff K keqb keqb_ok) in E. apply (in_bucket K sent B hf0 hf1 hf2 Bpos t D I b k Hb) in E. exact E.
      - right. intros j H X. assert (T : occurs K keqb k (bucket (tkeys K t) (b * B)) = true); [|congruence].
        apply (occurs_iff K keqb keqb_ok). apply (in_bucket K sent B hf0 hf1 hf2 Bpos t D I b k Hb). eauto.
    Qed.

    Lemma query_found k i : In (k, i) D -> query t k = i.
    Proof.
      intros Hin.
      assert (Hk : k <> sent). { intros ->. apply (i_nosent _ _ _ _ _ _ _ _ I). change sent with (fst (sent, i)). apply in_map. exact Hin. }
      destruct (i_stored _ _ _ _ _ _ _ _ I k i Hin) as (b & j & Hb & Hj & E & Ei).
      destruct (i_placed _ _ _ _ _ _ _ _ I b j k i Hb Hj Hk E Ei) as (_ & Ok).
      unfold BchtModel.query. pose proof (i_nb _ _ _ _ _ _ _ _ I) as Hnb. destruct (Nat.eqb_spec (tnb K t) 0); [lia|]. unfold off_of.
      assert (G : forall h, slot_of K (tnb K t) h k < tnb K t) by (intros h; apply (slot_of_lt K B Bpos); auto).
      assert (Only : forall b', b' < tnb K t -> b' <> b -> forall j', j' < B -> kat t b' j' <> Some k).
      { intros b' Hb' N j' Hj' X. destruct (i_uniq _ _ _ _ _ _ _ _ I b j b' j' k Hb Hj Hb' Hj' Hk E X). congruence. }
      unfold at_ok, b0, b1, b2 in Ok.
      destruct (Nat.eq_dec (slot_of K (tnb K t) hf0 k) b) as [Z0|Z0]. rewrite Z0. eapply round_hit; eauto.
      assert (F0 : full (slot_of K (tnb K t) hf0 k)) by (destruct Ok as [Z|[[_ Z]|[_ [Z _]]]]; [congruence|exact Z|exact Z]).
      destruct (round_miss k _ [slot_of K (tnb K t) hf1 k * B; slot_of K (tnb K t) hf2 k * B] (G hf0) (Only _ (G hf0) Z0)) as [[_ X]|[-> _]]. contradiction.
      destruct (Nat.eq_dec (slot_of K (tnb K t) hf1 k) b) as [Z1|Z1]. rewrite Z1. eapply round_hit; eauto.
      assert (F1 : full (slot_of K (tnb K t) hf1 k)) by (destruct Ok as [Z|[[Z _]|[_ [_ Z]]]]; [congruence|congruence|exact Z]).
      destruct (round_miss k _ [slot_of K (tnb K t) hf2 k * B] (G hf1) (Only _ (G hf1) Z1)) as [[_ X]|[-> _]]. contradiction.
      destruct (Nat.eq_dec (slot_of K (tnb K t) hf2 k) b) as [Z2|Z2]. rewrite Z2. eapply round_hit; eauto.
      exfalso. destruct Ok as [Z|[[Z _]|[Z _]]]; congruence.
    Qed.
    Lemma query_absent k : k <> sent -> ~ In k (map fst D) -> query t k = (-1)%Z.
    Proof.
      intros Hk N. unfold BchtModel.query. pose proof (i_nb _ _ _ _ _ _ _ _ I) as Hnb. destruct (Nat.eqb_spec (tnb K t) 0); [lia|]. unfold off_of.
      assert (G : forall h, slot_of K (tnb K t) h k < tnb K t) by (intros h; apply (slot_of_lt K B Bpos); auto).
      assert (No : forall b', b' < tnb K t -> forall j', j' < B -> kat t b' j' <> Some k).
      { intros b' Hb' j' Hj'. eapply not_stored; eauto. }
      destruct (round_miss k _ [slot_of K (tnb K t) hf1 k * B; slot_of K (tnb K t) hf2 k * B] (G hf0) (No _ (G hf0))) as [[-> _]|[-> _]]; auto.
      destruct (round_miss k _ [slot_of K (tnb K t) hf2 k * B] (G hf1) (No _ (G hf1))) as [[-> _]|[-> _]]; auto.
      destruct (round_miss k _ [] (G hf2) (No _ (G hf2))) as [[-> _]|[-> _]]; auto.
    Qed.
    Lemma inv_capacity : length D <= tnb K t * B.
    Proof.
      rewrite <- (i_lk _ _ _ _ _ _ _ _ I), <- (map_length fst D). apply NoDup_incl_length. apply (i_nodup _ _ _ _ _ _ _ _ I).
      intros k H. apply in_fst in H. destruct H as (i & H). destruct (i_stored _ _ _ _ _ _ _ _ I k i H) as (b & j & _ & _ & E & _).
      eapply nth_error_In. exact E.
    Qed.
  End Q.

  Lemma inv_perm t D D' : inv t D -> Permutation D D' -> inv t D'.
  Proof.
    intros I P. constructor; try apply I.
    - intros b j k i H1 H2 H3 H4 H5. destruct (i_placed _ _ _ _ _ _ _ _ I b j k i H1 H2 H3 H4 H5). split; auto. eapply Permutation_in; eauto.
    - intros k i H. apply (i_stored _ _ _ _ _ _ _ _ I). eapply Permutation_in. symmetry. exact P. exact H.
    - eapply Permutation_NoDup. apply Permutation_map. exact P. apply (i_nodup _ _ _ _ _ _ _ _ I).
    - intros H. apply (i_nosent _ _ _ _ _ _ _ _ I). eapply Permutation_in. apply Permutation_map. symmetry. exact P. exact H.
    - intros k i H. apply (i_nonneg _ _ _ _ _ _ _ _ I k i). eapply Permutation_in. symmetry. exact P. exact H.
  Qed.

  Lemma padded_mult cap : exists m, padded B cap = m * B /\ (0 < cap -> 0 < m).
  Proof.
    unfold padded. exists ((cap + B - 1) / B). split; auto. intros H. apply Nat.div_str_pos. lia.
  Qed.
  Lemma nth_error_repeat_some {A} (x y : A) n i : nth_error (repeat x n) i = Some y -> y = x.
  Proof. intros H. apply nth_error_In in H. eapply repeat_spec. exact H. Qed.
  Lemma empty_inv (t : table) : 0 < tnb K t -> tkeys K t = repeat sent (tnb K t * B) -> length (tinds K t) = tnb K t * B -> inv t [].
  Proof.
    intros H E Li. assert (N : forall b j x, kat t b j = Some x -> x = sent).
    { intros b j x X. unfold BchtProofs.kat in X. rewrite E in X. eapply nth_error_repeat_some. exact X. }
    constructor; auto; try (constructor; fail).
    - rewrite E. apply repeat_length.
    - intros b j k i _ _ C X. exfalso. apply C. eapply N. exact X.
    - intros k i [].
    - intros b j b' j' k _ _ _ _ C X. exfalso. apply C. eapply N. exact X.
    - intros b j j' x _ _ _ _ X. eapply N. exact X.
    - intros k i [].
  Qed.

  (** state of a table holding exactly the numbered keys ks *)
  Definition holds (t : table) (ks : list K) : Prop :=
    inv t (numb ks) /\ tcnt K t = length ks /\ length (tact K t) = tnb K t * B /\ firstn (length ks) (tact K t) = ks.

  Lemma holds_dictionary t ks : holds t ks -> dictionary K keqb sent B hf0 hf1 hf2 t ks.
  Proof.
    intros (I & C & _ & A). pose proof (i_nodup _ _ _ _ _ _ _ _ I) as N. rewrite numb_keys in N. repeat split; auto.
    - intros i k E. apply (query_found t _ I). apply numb_in. rewrite Nat2Z.id. split; [lia|auto].
    - intros k Hk H. apply (query_absent t _ I); auto. rewrite numb_keys. exact H.
  Qed.

  Lemma insert_key_chain t k : 0 < tnb K t ->
    insert_key t k = chain K keqb sent B hf0 hf1 hf2 (tmaxc K t - 1) t rng_seed (b0 K hf0 t k * B) k k (-1) (-1) true.
  Proof. intros H. unfold BchtModel.insert_key, BchtModel.insert. destruct (Nat.eqb_spec (tnb K t) 0); [lia|]. reflexivity. Qed.

  Lemma insert_step t D k o t' : inv t D -> k <> sent -> ~ In k (map fst D) -> insert_key t k = (o, t') ->
    tnb K t' = tnb K t /\ tmaxc K t' = tmaxc K t /\ tcnt K t' = S (tcnt K t) /\
    match o with
    | Inserted n => n = Z.of_nat (tcnt K t) /\ upd (tact K t) (tcnt K t) k = Some (tact K t') /\ inv t' ((k, Z.of_nat (tcnt K t)) :: D)
    | Failed => tact K t' = tact K t /\ exists v D', Permutation (v :: D') ((k, Z.of_nat (tcnt K t)) :: D) /\ inv t' D'
    | OutOfRange => tact K t' = tact K t /\ length (tact K t) <= tcnt K t /\ inv t' ((k, Z.of_nat (tcnt K t)) :: D)
    | _ => False
    end.
  Proof.
    intros I Hk N E. pose proof (i_nb _ _ _ _ _ _ _ _ I) as Hnb. rewrite insert_key_chain in E by auto.
    pose proof (chain_spec K keqb sent B hf0 hf1 hf2 keqb_ok Bpos _ t D rng_seed (b0 K hf0 t k) k k (-1)%Z (-1)%Z true o t' I Hk N (slot_of_lt K B Bpos t hf0 k Hnb)
      (or_introl eq_refl) ltac:(lia) E) as S. cbn zeta in S. cbn in S. destruct S as (S1 & S2 & S3 & S4). split; auto. split; auto. split; auto.
    destruct o; auto.
    - destruct S4 as (-> & S4 & D' & P & I'). rewrite Nat2Z.id in S4. split; auto. split; auto. eapply inv_perm; eauto.
    - destruct S4 as (S5 & _ & S4 & D' & P & I'). rewrite Nat2Z.id in S4. split; auto. split; auto. eapply inv_perm; eauto.
  Qed.

  Lemma upd_firstn {A} (l l' : list A) n x : upd l n x = Some l' -> firstn (S n) l' = firstn n l ++ [x].
  Proof.
    revert l l'. induction n as [|n IH]; intros [|a l] l' H; cbn in H; try discriminate.
    - injection H as <-. reflexivity.
    - destruct (upd l n x) as [m|] eqn:E; [|discriminate]. injection H as <-. cbn [firstn app]. f_equal. apply IH. exact E.
  Qed.

  Lemma holds_insert t ks k o t' : holds t ks -> k <> sent -> ~ In k ks -> insert_key t k = (o, t') ->
    (o = Inserted (Z.of_nat (length ks)) /\ holds t' (ks ++ [k])) \/ (o = Failed /\ exists v D', Permutation (v :: D') (numb (ks ++ [k])) /\ inv t' D').
  Proof.
    intros (I & C & L & A) Hk N E.
    assert (N' : ~ In k (map fst (numb ks))) by (rewrite numb_keys; exact N).
    destruct (insert_step t _ k o t' I Hk N' E) as (S1 & S2 & S3 & S4).
    assert (P : Permutation ((k, Z.of_nat (tcnt K t)) :: numb ks) (numb (ks ++ [k]))).
    { rewrite numb_app, C. apply Permutation_cons_append. }
    destruct o; try contradiction.
    - destruct S4 as (-> & U & I'). left. rewrite <- C at 1. split; auto. split. eapply inv_perm; eauto.
      rewrite app_length, S1, (upd_length _ _ _ _ U). cbn. rewrite Nat.add_1_r. split. congruence. split. exact L.
      rewrite <- C. erewrite upd_firstn by exact U. rewrite C, A. reflexivity.
    - destruct S4 as (_ & v & D' & P' & I'). right. split; auto. exists v, D'. split; auto. rewrite P'. exact P.
    - exfalso. destruct S4 as (_ & O & I'). pose proof (inv_capacity _ _ I') as X. cbn in X. rewrite numb_length in X. rewrite S1 in X. lia.
  Qed.

  (** ** resize *)
  Lemma reinsert_spec n : forall t i ks os t',
    i + n = length ks -> inv t (numb (firstn i ks)) -> tcnt K t = length ks -> length (tact K t) = tnb K t * B -> firstn (length ks) (tact K t) = ks ->
    NoDup ks -> ~ In sent ks ->
    reinsert K keqb sent B hf0 hf1 hf2 t i n = (os, t') -> ~ In Failed os ->
    holds t' ks /\ os = map (fun j => Inserted (Z.of_nat j)) (seq i n).
  Proof.
    induction n as [|n IH]; intros t i ks os t' Hi I C L A Nd Ns; cbn [reinsert].
    - intros Q _. injection Q as <- <-. split; auto. rewrite Nat.add_0_r in Hi. rewrite firstn_all2 in I by lia. exact (conj I (conj C (conj L A))).
    - destruct (nth_error_lt_some ks i ltac:(lia)) as (k & Ek).
      assert (Ek' : nth_error (tact K t) i = Some k).
      { rewrite <- A in Ek. clear - Ek. revert Ek. generalize (length ks). intros m. revert i m. induction (tact K t); intros [|i] [|m]; cbn; auto; try discriminate. apply IHl. }
      rewrite Ek'. destruct (insert t k (Z.of_nat i) false) as (o, t1) eqn:E1.
      destruct (reinsert K keqb sent B hf0 hf1 hf2 t1 (S i) n) as (os1, t2) eqn:E2. intros Q NF. injection Q as <- <-.
      assert (Hk : k <> sent) by (intros ->; apply Ns; eapply nth_error_In; eauto).
      assert (F : firstn (S i) ks = firstn i ks ++ [k]).
      { clear - Ek. revert i Ek. induction ks; intros [|i] H; cbn in *; try discriminate. injection H as ->. reflexivity. f_equal. apply IHks. exact H. }
      assert (Nk : ~ In k (map fst (numb (firstn i ks)))).
      { rewrite numb_keys. intros X. apply In_nth_error in X. destruct X as (j & X).
        assert (j < i). { apply nth_error_some_lt in X. rewrite firstn_length in X. lia. }
        assert (nth_error ks j = Some k). { rewrite <- (firstn_skipn i ks), nth_error_app1. exact X. rewrite firstn_length. lia. }
        assert (j = i); [|lia]. eapply (proj1 (NoDup_nth_error ks)); eauto. lia. congruence. }
      pose proof (i_nb _ _ _ _ _ _ _ _ I) as Hnb. unfold BchtModel.insert in E1. destruct (Nat.eqb_spec (tnb K t) 0); [lia|].
      pose proof (chain_spec K keqb sent B hf0 hf1 hf2 keqb_ok Bpos _ t _ rng_seed (b0 K hf0 t k) k k (Z.of_nat i) (Z.of_nat i) false o t1 I Hk Nk (slot_of_lt K B Bpos t hf0 k Hnb)
        (or_introl eq_refl) ltac:(lia) E1) as S. cbn zeta in S. assert (Zi : Z.eqb (Z.of_nat i) (-1) = false) by lia. rewrite Zi in S.
      destruct S as (S1 & S2 & S3 & S4).
      destruct o; try contradiction.
      + destruct S4 as (-> & Sa & D' & P & I').
        assert (I1 : inv t1 (numb (firstn (S i) ks))).
        { eapply inv_perm. exact I'. rewrite P, F, numb_app. rewrite firstn_length, Nat.min_l by lia. apply Permutation_cons_append. }
        destruct (IH t1 (S i) ks os1 t2) as (G1 & G2); auto. lia. congruence. rewrite Sa, S1. auto. rewrite Sa. auto.
        intros X. apply NF. right. exact X. split; auto. cbn. f_equal. exact G2.
      + exfalso. apply NF. left; auto.
      + exfalso. destruct S4 as (_ & X & _). discriminate.
  Qed.

  Lemma regrow_length {A} (d : A) c l : length (regrow d c l) = c.
  Proof. unfold regrow. rewrite firstn_length, app_length, repeat_length. lia. Qed.
  Lemma regrow_firstn {A} (d : A) c l n : n <= c -> n <= length l -> firstn n (regrow d c l) = firstn n l.
  Proof. intros H H'. unfold regrow. rewrite firstn_firstn, Nat.min_l by auto. rewrite firstn_app. replace (n - length l) with 0 by lia. cbn. apply app_nil_r. Qed.

  Lemma holds_resize t ks cap maxc os t' : holds t ks -> resize K keqb sent B hf0 hf1 hf2 t cap maxc = (os, t') -> ~ In Failed os ->
    holds t' ks /\ (t' = t /\ os = [] \/ os = map (fun j => Inserted (Z.of_nat j)) (seq 0 (length ks))).
  Proof.
    intros (I & C & L & A) E NF. unfold resize in E. destruct (Nat.leb_spec (padded B cap * 2) (tnb K t * B)) as [H|H].
    - injection E as <- <-. split; [exact (conj I (conj C (conj L A)))|left; auto].
    - destruct (padded_mult cap) as (m & Pm & _).
      assert (Ec : padded B cap * 2 = m * 2 * B) by (rewrite Pm; lia). rewrite Ec in *.
      assert (Dv : m * 2 * B / B = m * 2) by (apply Nat.div_mul; lia). rewrite Dv in E. cbn [tcnt] in E. rewrite C in E.
      pose proof (i_nb _ _ _ _ _ _ _ _ I) as Hnb.
      assert (Ln : length ks <= tnb K t * B). { pose proof (inv_capacity _ _ I) as X. rewrite numb_length in X. exact X. }
      pose proof (i_nodup _ _ _ _ _ _ _ _ I) as Nd. rewrite numb_keys in Nd.
      pose proof (i_nosent _ _ _ _ _ _ _ _ I) as Ns. rewrite numb_keys in Ns.
      refine ((fun G => _) (reinsert_spec (length ks) _ 0 ks os t' eq_refl _ _ _ _ Nd Ns E NF)).
      + destruct G as (G1 & G2). split; auto.
      + apply empty_inv; cbn. nia. reflexivity. apply regrow_length.
      + reflexivity.
      + cbn. apply regrow_length.
      + cbn [tact]. rewrite regrow_firstn. exact A. lia. rewrite L. exact Ln.
  Qed.

  Lemma construct_holds cap maxc : 0 < cap -> holds (construct K sent B cap maxc) [].
  Proof.
    intros H. destruct (padded_mult cap) as (m & Pm & Hm). specialize (Hm H). unfold construct.
    assert (Ec : padded B cap * 2 = m * 2 * B) by (rewrite Pm; lia). rewrite Ec.
    assert (Dv : m * 2 * B / B = m * 2) by (apply Nat.div_mul; lia). rewrite Dv.
    split; [apply empty_inv; cbn [tnb tkeys tinds]; [lia|reflexivity|apply repeat_length]|].
    cbn [tcnt tact tnb length firstn]. rewrite repeat_length. auto.
  Qed.
  Lemma reset_holds t ks : holds t ks -> holds (reset K sent t) [].
  Proof.
    intros (I & C & L & A). assert (J : inv (reset K sent t) []).
    { apply empty_inv; cbn. apply I. rewrite (i_lk _ _ _ _ _ _ _ _ I). reflexivity. apply I. }
    split; auto.
  Qed.
  Lemma chain_cnt rest : forall t y off key k idx no enq o t', chain K keqb sent B hf0 hf1 hf2 rest t y off key k idx no enq = (o, t') -> tcnt K t <= tcnt K t'.
  Proof.
    assert (Nm : forall t idx no t1 i1 n1, number K t idx no = (t1, i1, n1) -> tcnt K t <= tcnt K t1).
    { intros t idx no t1 i1 n1. unfold number. destruct (Z.eqb idx (-1)); intros Q; injection Q as <- <- <-; cbn; lia. }
    induction rest as [|r IH]; intros t y off key k idx no enq o t'; cbn [chain];
      destruct (occurs K keqb k (bucket (tkeys K t) off)); try (intros Q; injection Q as <- <-; lia);
      destruct (negb _);
      destruct (nth_error (tkeys K t) _) as [x|]; try (intros Q; injection Q as <- <-; lia);
      try (destruct (keqb x sent)); try (intros Q; injection Q as <- <-; lia);
      destruct (upd (tkeys K t) _ k) as [ks|]; try (intros Q; injection Q as <- <-; lia);
      destruct (number K (w_keys K t ks) idx no) as ((t1, i1), n1) eqn:En; apply Nm in En; cbn in En;
      try (destruct (nth_error (tinds K t1) _) as [z|]); try (intros Q; injection Q as <- <-; lia);
      destruct (upd (tinds K t1) _ i1) as [is|]; try (intros Q; injection Q as <- <-; cbn; lia).
    all: try (destruct enq; [destruct (upd (tact K _) _ key)|]; intros Q; injection Q as <- <-; cbn; lia).
    all: intros Q; apply IH in Q; cbn in Q; lia.
  Qed.
  (** a re-insertion that reports "exists" without drawing a number changed nothing *)
  Lemma again_holds t ks k t' : holds t ks -> In k ks -> insert_key t k = (Exists, t') -> tcnt K t' = tcnt K t -> t' = t.
  Proof.
    intros (I & C & L & A) Hk E Sz. pose proof (i_nb _ _ _ _ _ _ _ _ I) as Hnb. rewrite insert_key_chain in E by auto.
    destruct (bucket_dec t _ I k (b0 K hf0 t k) (slot_of_lt K B Bpos t hf0 k Hnb)) as [(j & Hj & X)|X].
    - assert (O : occurs K keqb k (bucket (tkeys K t) (b0 K hf0 t k * B)) = true).
      { apply (occurs_iff K keqb keqb_ok). apply (in_bucket K sent B hf0 hf1 hf2 Bpos t _ I). apply (slot_of_lt K B Bpos); auto. eauto. }
      destruct (tmaxc K t - 1); cbn [chain] in E; rewrite O in E; injection E as <-; reflexivity.
    - exfalso.
      assert (O : occurs K keqb k (bucket (tkeys K t) (b0 K hf0 t k * B)) = false).
      { destruct (occurs K keqb k (bucket (tkeys K t) (b0 K hf0 t k * B))) eqn:O; auto. apply (occurs_iff K keqb keqb_ok) in O.
        apply (in_bucket K sent B hf0 hf1 hf2 Bpos t _ I) in O. destruct O as (j & Hj & Y). elim (X j Hj Y). apply (slot_of_lt K B Bpos); auto. }
      destruct (tmaxc K t - 1); cbn [chain] in E; rewrite O in E;
        destruct (negb _); destruct (nth_error (tkeys K t) _) as [x|]; try discriminate; try (destruct (keqb x sent); try discriminate);
        destruct (upd (tkeys K t) _ k) as [ks'|]; try discriminate; unfold number in E; cbn [Z.eqb Pos.eqb] in E; cbn [tinds w_cnt w_keys tact w_inds w_act tcnt] in E;
        try (destruct (nth_error (tinds K t) _); try discriminate);
        destruct (upd (tinds K t) _ _); try discriminate;
        try (destruct (upd (tact K t) _ _); discriminate).
      all: apply chain_cnt in E; cbn in E; lia.
  Qed.

  Lemma reach_holds t ks : reach K keqb sent B hf0 hf1 hf2 t ks -> holds t ks.
  Proof.
    induction 1 as [cap maxc H|t ks k n t' R IH Hk N E|t ks k t' R IH Hk E Sz|t ks cap maxc os t' R IH E NF|t ks R IH].
    - apply construct_holds. exact H.
    - destruct (holds_insert t ks k _ t' IH Hk N E) as [(_ & H)|(X & _)]. exact H. discriminate.
    - rewrite (again_holds t ks k t' IH Hk E Sz). exact IH.
    - eapply holds_resize; eauto.
    - eapply reset_holds. exact IH.
  Qed.
End P.
