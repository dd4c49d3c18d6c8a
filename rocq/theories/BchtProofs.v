(** Placement invariant of the bucketed cuckoo table and its preservation by the displacement chain. *)
From Verif Require Import Prelude BchtModel.
Local Open Scope nat_scope.

Lemma slot_inj B b j b' j' : j < B -> j' < B -> b * B + j = b' * B + j' -> b = b' /\ j = j'.
Proof.
  intros H H' E. assert (b = b').
  { assert (b <= b' \/ b' <= b) as [L|L] by lia; assert (b < b' \/ b' < b \/ b = b') as [M|[M|M]] by lia; auto; exfalso; nia. }
  subst. lia.
Qed.
Lemma slot_lt B b j nb : b < nb -> j < B -> b * B + j < nb * B.
Proof. nia. Qed.

Section P.
  Variable K : Type.
  Variable keqb : K -> K -> bool.
  Variable sent : K.
  Variable B : nat.
  Variables hf0 hf1 hf2 : K -> N.
  Hypothesis keqb_ok : forall a b, keqb a b = true <-> a = b.
  Hypothesis Bpos : 0 < B.

  Notation table := (table K).
  Notation bucket := (bucket K B).
  Notation load := (load K keqb sent).
  Notation occurs := (occurs K keqb).

  Lemma keqb_neq a b : a <> b -> keqb a b = false.
  Proof. intros H. destruct (keqb a b) eqn:E; auto. apply keqb_ok in E. contradiction. Qed.
  Lemma keqb_refl a : keqb a a = true.
  Proof. apply keqb_ok. reflexivity. Qed.
  Lemma K_dec (a b : K) : a = b \/ a <> b.
  Proof. destruct (keqb a b) eqn:E. left. apply keqb_ok. exact E. right. intros ->. rewrite keqb_refl in E. discriminate. Qed.

  Definition kat (t : table) b j := nth_error (tkeys K t) (b * B + j).
  Definition iat (t : table) b j := nth_error (tinds K t) (b * B + j).

  (** a bucket without an empty slot *)
  Definition full (t : table) b := forall j, j < B -> exists x, x <> sent /\ kat t b j = Some x.
  Definition b0 (t : table) k := slot_of K (tnb K t) hf0 k.
  Definition b1 (t : table) k := slot_of K (tnb K t) hf1 k.
  Definition b2 (t : table) k := slot_of K (tnb K t) hf2 k.
  (** bucket b is one where a query for k gets to look *)
  Definition at_ok (t : table) k b :=
    b = b0 t k \/ (b = b1 t k /\ full t (b0 t k)) \/ (b = b2 t k /\ full t (b0 t k) /\ full t (b1 t k)).

  Record inv (t : table) (D : list (K * Z)) : Prop := {
    i_nb : 0 < tnb K t;
    i_lk : length (tkeys K t) = tnb K t * B;
    i_li : length (tinds K t) = tnb K t * B;
    i_placed : forall b j k i, b < tnb K t -> j < B -> k <> sent -> kat t b j = Some k -> iat t b j = Some i -> In (k, i) D /\ at_ok t k b;
    i_stored : forall k i, In (k, i) D -> exists b j, b < tnb K t /\ j < B /\ kat t b j = Some k /\ iat t b j = Some i;
    i_uniq : forall b j b' j' k, b < tnb K t -> j < B -> b' < tnb K t -> j' < B -> k <> sent -> kat t b j = Some k -> kat t b' j' = Some k -> b = b' /\ j = j';
    i_prefix : forall b j j' x, b < tnb K t -> j < j' -> j' < B -> kat t b j = Some sent -> kat t b j' = Some x -> x = sent;
    i_nodup : NoDup (map fst D);
    i_nosent : ~ In sent (map fst D);
    i_nonneg : forall k i, In (k, i) D -> (0 <= i)%Z }.

  Lemma bucket_nth (l : list K) b j : j < B -> nth_error (bucket l (b * B)) j = nth_error l (b * B + j).
  Proof.
    intros H. unfold BchtModel.bucket. revert H. generalize (b * B) as o. intros o H.
    transitivity (nth_error (skipn o l) j).
    - clear - H. revert H. generalize (skipn o l) as m. intro m. revert B m. induction j; intros [|n] [|x m] H; try lia; cbn; auto. apply IHj. lia.
    - clear H. revert l. induction o; intros l; cbn; auto. destruct l; cbn; auto. destruct j; auto.
  Qed.
  Lemma bucket_length (l : list K) nb b : length l = nb * B -> b < nb -> length (bucket l (b * B)) = B.
  Proof. intros L H. unfold BchtModel.bucket. rewrite firstn_length, skipn_length, L. nia. Qed.

  Lemma occurs_iff k l : occurs k l = true <-> In k l.
  Proof.
    unfold BchtModel.occurs. rewrite existsb_exists. split.
    - intros (x & I & E). apply keqb_ok in E. subst. exact I.
    - intros I. exists k. split; auto. apply keqb_refl.
  Qed.

  Definition pref (l : list K) := forall j j' x, j < j' -> nth_error l j = Some sent -> nth_error l j' = Some x -> x = sent.
  Lemma load_le l : load l <= length l.
  Proof. unfold BchtModel.load. induction l; cbn; auto. destruct (negb _); cbn; lia. Qed.
  Lemma load_all_sent l : (forall j x, nth_error l j = Some x -> x = sent) -> load l = 0.
  Proof.
    unfold BchtModel.load. induction l; intros H; cbn; auto.
    rewrite (H 0 a eq_refl), keqb_refl. cbn. apply IHl. intros j x E. exact (H (S j) x E).
  Qed.
  Lemma load_spec l : pref l ->
    (forall j, j < load l -> exists x, x <> sent /\ nth_error l j = Some x) /\ (forall j x, load l <= j -> nth_error l j = Some x -> x = sent).
  Proof.
    induction l as [|a l IH]; intros P.
    - split. intros j H. cbn in H. lia. intros j x _ E. destruct j; discriminate.
    - assert (P' : pref l) by (intros j j' x L E E'; apply (P (S j) (S j') x); auto; lia).
      destruct (IH P') as (A & C). destruct (K_dec a sent) as [->|N].
      + assert (Z : load (sent :: l) = 0).
        { apply load_all_sent. intros [|j] x E. cbn in E. congruence. exact (P 0 (S j) x ltac:(lia) eq_refl E). }
        rewrite Z. split. intros; lia. intros [|j] x _ E. cbn in E. congruence. exact (P 0 (S j) x ltac:(lia) eq_refl E).
      + assert (Z : load (a :: l) = S (load l)).
        { unfold BchtModel.load. cbn. rewrite (keqb_neq sent a) by congruence. reflexivity. }
        rewrite Z. split.
        * intros [|j] H. exists a. auto. destruct (A j) as (x & X & E). lia. exists x. auto.
        * intros [|j] x H E. lia. apply (C j x). lia. exact E.
  Qed.

  Section Inv.
    Variables (t : table) (D : list (K * Z)).
    Hypothesis I : inv t D.

    Lemma pref_bucket b : b < tnb K t -> pref (bucket (tkeys K t) (b * B)).
    Proof.
      intros H j j' x L E E'.
      assert (j' < B). { rewrite <- (bucket_length (tkeys K t) (tnb K t) b (i_lk _ _ I) H). eapply nth_error_some_lt. exact E'. }
      rewrite bucket_nth in E, E' by lia. exact (i_prefix _ _ I b j j' x H L H0 E E').
    Qed.
    Lemma kat_some b j : b < tnb K t -> j < B -> exists x, kat t b j = Some x.
    Proof. intros H H'. apply nth_error_lt_some. rewrite (i_lk _ _ I). nia. Qed.
    Lemma iat_some b j : b < tnb K t -> j < B -> exists x, iat t b j = Some x.
    Proof. intros H H'. apply nth_error_lt_some. rewrite (i_li _ _ I). nia. Qed.
    Lemma in_bucket b k : b < tnb K t -> (In k (bucket (tkeys K t) (b * B)) <-> exists j, j < B /\ kat t b j = Some k).
    Proof.
      intros H. split.
      - intros X. apply In_nth_error in X. destruct X as (j & E).
        assert (j < B). { rewrite <- (bucket_length (tkeys K t) (tnb K t) b (i_lk _ _ I) H). eapply nth_error_some_lt. exact E. }
        exists j. split; auto. rewrite bucket_nth in E by auto. exact E.
      - intros (j & L & E). eapply nth_error_In. rewrite bucket_nth; eauto.
    Qed.
    Lemma load_full b : b < tnb K t -> (load (bucket (tkeys K t) (b * B)) = B <-> full t b).
    Proof.
      intros H. destruct (load_spec _ (pref_bucket b H)) as (A & C). split.
      - intros E j L. rewrite <- E in L. destruct (A j L) as (x & X & Y). exists x. rewrite bucket_nth in Y by lia. auto.
      - intros F. pose proof (load_le (bucket (tkeys K t) (b * B))) as L. rewrite (bucket_length _ _ _ (i_lk _ _ I) H) in L.
        assert (load (bucket (tkeys K t) (b * B)) < B \/ load (bucket (tkeys K t) (b * B)) = B) as [X|X] by lia; auto.
        destruct (F _ X) as (x & N & Y). exfalso. apply N. eapply C. apply Nat.le_refl. rewrite bucket_nth by auto. exact Y.
    Qed.
    Lemma not_stored k b j : ~ In k (map fst D) -> k <> sent -> b < tnb K t -> j < B -> kat t b j <> Some k.
    Proof.
      intros N S H L E. destruct (iat_some b j H L) as (i & Ei). destruct (i_placed _ _ I b j k i H L S E Ei) as (X & _).
      apply N. change k with (fst (k, i)). apply in_map. exact X.
    Qed.
  End Inv.

  Lemma slot_of_lt (t : table) h k : 0 < tnb K t -> slot_of K (tnb K t) h k < tnb K t.
  Proof. intros H. unfold slot_of. assert (h k mod N.of_nat (tnb K t) < N.of_nat (tnb K t))%N by (apply N.mod_lt; lia). lia. Qed.

  (** storing (k, i) in slot (b, j): what later reads see *)
  Lemma put_kat (t t' : table) b j k ks : upd (tkeys K t) (b * B + j) k = Some ks -> tkeys K t' = ks -> j < B ->
    forall b' j', j' < B -> kat t' b' j' = if (Nat.eqb b b' && Nat.eqb j j')%bool then Some k else kat t b' j'.
  Proof.
    intros U E H b' j' H'. unfold kat. rewrite E. destruct (Nat.eqb b b' && Nat.eqb j j')%bool eqn:X.
    - apply andb_true_iff in X. destruct X as (X & Y). apply Nat.eqb_eq in X, Y. subst b' j'. eapply upd_nth_eq. exact U.
    - eapply upd_nth_neq. exact U. intro Z. destruct (slot_inj B b j b' j' H H' ltac:(lia)). subst. rewrite !Nat.eqb_refl in X. discriminate.
  Qed.
  Lemma put_iat (t t' : table) b j i is : upd (tinds K t) (b * B + j) i = Some is -> tinds K t' = is -> j < B ->
    forall b' j', j' < B -> iat t' b' j' = if (Nat.eqb b b' && Nat.eqb j j')%bool then Some i else iat t b' j'.
  Proof.
    intros U E H b' j' H'. unfold iat. rewrite E. destruct (Nat.eqb b b' && Nat.eqb j j')%bool eqn:X.
    - apply andb_true_iff in X. destruct X as (X & Y). apply Nat.eqb_eq in X, Y. subst b' j'. eapply upd_nth_eq. exact U.
    - eapply upd_nth_neq. exact U. intro Z. destruct (slot_inj B b j b' j' H H' ltac:(lia)). subst. rewrite !Nat.eqb_refl in X. discriminate.
  Qed.

  Lemma in_fst {V} (k : K) (D : list (K * V)) : In k (map fst D) -> exists v, In (k, v) D.
  Proof. intros H. apply in_map_iff in H. destruct H as ((a, v) & E & H). cbn in E. subst. eauto. Qed.

  (** writing a new key k over the content x of slot (b, j): x is the sentinel with everything before it occupied, or a stored key *)
  Lemma put_inv (t t' : table) D D' b j k i x ks is :
    inv t D -> b < tnb K t -> j < B -> k <> sent -> ~ In k (map fst D) -> at_ok t k b -> (0 <= i)%Z ->
    upd (tkeys K t) (b * B + j) k = Some ks -> upd (tinds K t) (b * B + j) i = Some is ->
    tkeys K t' = ks -> tinds K t' = is -> tnb K t' = tnb K t ->
    kat t b j = Some x ->
    (x = sent /\ (forall j', j' < j -> exists y, y <> sent /\ kat t b j' = Some y) /\ D' = D
     \/ x <> sent /\ exists xi, iat t b j = Some xi /\ Permutation D ((x, xi) :: D')) ->
    inv t' ((k, i) :: D') /\ (forall c, full t c -> full t' c).
  Proof.
    intros I Hb Hj Hk Nk Ok Hi Uk Ui Ek Ei En X Cs.
    pose proof (put_kat t t' b j k ks Uk Ek Hj) as PK.
    pose proof (put_iat t t' b j i is Ui Ei Hj) as PI.
    assert (FM : forall c, full t c -> full t' c).
    { intros c F j' L. rewrite PK by auto. destruct (_ && _)%bool. eauto. apply F. exact L. }
    assert (AM : forall c k', at_ok t k' c -> at_ok t' k' c).
    { intros c k'. unfold at_ok, b0, b1, b2. rewrite En. intros [A|[[A F]|[A [F F']]]]; [left; auto|right; left; auto|right; right; auto]. }
    assert (Sub : forall p, In p D' -> In p D).
    { destruct Cs as [(_ & _ & ->)|(_ & xi & _ & P)]; auto. intros p Y. eapply Permutation_in. symmetry. exact P. right. exact Y. }
    assert (Bk : forall p, In p D -> In p D' \/ fst p = x /\ x <> sent).
    { destruct Cs as [(_ & _ & ->)|(Hx & xi & _ & P)]; auto. intros p Y. eapply Permutation_in in Y. 2: exact P. destruct Y as [<-|Y]; auto. }
    assert (ND' : NoDup (map fst D') /\ (x <> sent -> ~ In x (map fst D'))).
    { destruct Cs as [(-> & _ & ->)|(_ & xi & _ & P)]. split. apply (i_nodup _ _ I). intros C; contradiction.
      pose proof (Permutation_map fst P) as Q. cbn in Q. pose proof (Permutation_NoDup Q (i_nodup _ _ I)) as N. inversion N. auto. }
    split; auto.
    constructor.
    - rewrite En. apply (i_nb _ _ I).
    - rewrite Ek, En, (upd_length _ _ _ _ Uk). apply (i_lk _ _ I).
    - rewrite Ei, En, (upd_length _ _ _ _ Ui). apply (i_li _ _ I).
    - rewrite En. intros b' j' k' i' Hb' Hj' Hk'. rewrite PK, PI by auto. destruct (Nat.eqb b b' && Nat.eqb j j')%bool eqn:E.
      + intros A C. injection A as <-. injection C as <-. apply andb_true_iff in E. destruct E as (E & _). apply Nat.eqb_eq in E. subst. split. left; auto. auto.
      + intros A C. destruct (i_placed _ _ I b' j' k' i' Hb' Hj' Hk' A C) as (Y & Z). split; auto.
        destruct (Bk _ Y) as [Y'|(Y' & Hx)]. right; exact Y'. cbn in Y'. subst k'.
        destruct (i_uniq _ _ I b j b' j' x Hb Hj Hb' Hj' Hx X A). subst. rewrite !Nat.eqb_refl in E. discriminate.
    - rewrite En. intros k' i' [Y|Y].
      + injection Y as <- <-. exists b, j. rewrite PK, PI, !Nat.eqb_refl by auto. auto.
      + destruct (i_stored _ _ I k' i' (Sub _ Y)) as (b' & j' & Hb' & Hj' & A & C). exists b', j'. rewrite PK, PI by auto.
        destruct (Nat.eqb b b' && Nat.eqb j j')%bool eqn:E; auto. exfalso.
        apply andb_true_iff in E. destruct E as (E & E2). apply Nat.eqb_eq in E, E2. subst b' j'. rewrite X in A. injection A as ->.
        assert (k' <> sent). { intros ->. apply (i_nosent _ _ I). change sent with (fst (sent, i')). apply in_map. auto. }
        apply (proj2 ND' H). change k' with (fst (k', i')). apply in_map. exact Y.
    - rewrite En. intros b1' j1 b2' j2 k' H1 H2 H3 H4 Hk'. rewrite !PK by auto.
      destruct (Nat.eqb b b1' && Nat.eqb j j1)%bool eqn:E1; destruct (Nat.eqb b b2' && Nat.eqb j j2)%bool eqn:E2.
      + intros _ _. apply andb_true_iff in E1, E2. destruct E1 as (P1 & Q1), E2 as (P2 & Q2). apply Nat.eqb_eq in P1, Q1, P2, Q2. subst. auto.
      + intros A C. injection A as <-. exfalso. exact (not_stored t D I k b2' j2 Nk Hk H3 H4 C).
      + intros A C. injection C as <-. exfalso. exact (not_stored t D I k b1' j1 Nk Hk H1 H2 A).
      + apply (i_uniq _ _ I); auto.
    - rewrite En. intros b' j1 j2 y Hb' L H2. rewrite !PK by lia.
      destruct (Nat.eqb b b' && Nat.eqb j j1)%bool eqn:E1. intros A; injection A as ->; contradiction.
      destruct (Nat.eqb b b' && Nat.eqb j j2)%bool eqn:E2.
      + apply andb_true_iff in E2. destruct E2 as (P2 & Q2). apply Nat.eqb_eq in P2, Q2. subst b' j2. intros A _. exfalso.
        destruct Cs as [(-> & Pr & _)|(Hx & _)].
        * destruct (Pr j1 L) as (y' & Hy & A'). congruence.
        * apply Hx. exact (i_prefix _ _ I b j1 j x Hb' L Hj A X).
      + apply (i_prefix _ _ I); auto.
    - cbn. constructor. intros Y. apply Nk. apply in_fst in Y. destruct Y as (v & Y). change k with (fst (k, v)). apply in_map. auto. apply ND'.
    - cbn. intros [Y|Y]. congruence. apply (i_nosent _ _ I). apply in_fst in Y. destruct Y as (v & Y). change sent with (fst (sent, v)). apply in_map. auto.
    - intros k' i' [Y|Y]. congruence. eapply (i_nonneg _ _ I). apply Sub. exact Y.
  Qed.

  Lemma chain_spec rest : forall t D y b key k idx no enq o t',
    inv t D -> k <> sent -> ~ In k (map fst D) -> b < tnb K t -> at_ok t k b -> (-1 <= idx)%Z ->
    chain K keqb sent B hf0 hf1 hf2 rest t y (b * B) key k idx no enq = (o, t') ->
    let idx1 := if Z.eqb idx (-1) then Z.of_nat (tcnt K t) else idx in
    let no1 := if Z.eqb idx (-1) then Z.of_nat (tcnt K t) else no in
    let cnt1 := if Z.eqb idx (-1) then S (tcnt K t) else tcnt K t in
    tnb K t' = tnb K t /\ tmaxc K t' = tmaxc K t /\ tcnt K t' = cnt1 /\
    match o with
    | Inserted n => n = no1 /\ (if enq then upd (tact K t) (Z.to_nat no1) key = Some (tact K t') else tact K t' = tact K t)
                    /\ exists D', Permutation D' ((k, idx1) :: D) /\ inv t' D'
    | Failed => tact K t' = tact K t /\ exists v D', Permutation (v :: D') ((k, idx1) :: D) /\ inv t' D'
    | OutOfRange => tact K t' = tact K t /\ enq = true /\ length (tact K t) <= Z.to_nat no1 /\ exists D', Permutation D' ((k, idx1) :: D) /\ inv t' D'
    | _ => False
    end.
  Proof.
    induction rest as [|r IH]; intros t D y b key k idx no enq o t' I Hk Nk Hb Ok Hidx; cbn [chain];
      (assert (Oc : occurs k (bucket (tkeys K t) (b * B)) = false);
       [ destruct (occurs k (bucket (tkeys K t) (b * B))) eqn:E; auto; exfalso; apply occurs_iff in E; apply (in_bucket t D I b k Hb) in E;
         destruct E as (j & L & E); eapply (not_stored t D I k b j); eauto | ]);
      rewrite Oc;
      destruct (Nat.eqb (load (bucket (tkeys K t) (b * B))) B) eqn:Lf; cbn [negb].
    2, 4: (* a free slot *)
      apply Nat.eqb_neq in Lf;
      destruct (load_spec _ (pref_bucket t D I b Hb)) as (A & C);
      pose proof (load_le (bucket (tkeys K t) (b * B))) as Ll; rewrite (bucket_length _ _ _ (i_lk _ _ I) Hb) in Ll;
      set (l := load (bucket (tkeys K t) (b * B))) in *;
      assert (Hl : l < B) by lia;
      destruct (kat_some t D I b l Hb Hl) as (x & X);
      assert (x = sent) by (apply (C l x); [lia | rewrite bucket_nth by auto; exact X]); subst x;
      pose proof X as X'; unfold kat in X'; rewrite X'; rewrite keqb_refl;
      assert (Lt : b * B + l < tnb K t * B) by (apply slot_lt; auto);
      destruct (upd_some (tkeys K t) (b * B + l) k) as (ks & Uk); [rewrite (i_lk _ _ I); exact Lt|]; rewrite Uk;
      assert (Pr : forall j', j' < l -> exists y, y <> sent /\ kat t b j' = Some y)
        by (intros j' L'; destruct (A j' L') as (z & Z1 & Z2); exists z; rewrite bucket_nth in Z2 by lia; auto);
      unfold number; destruct (Z.eqb idx (-1)) eqn:Ei;
      [ destruct (upd_some (tinds K t) (b * B + l) (Z.of_nat (tcnt K t))) as (is & Ui); [rewrite (i_li _ _ I); exact Lt|]; cbn [tinds w_cnt w_keys w_inds tact tcnt tnb tmaxc]; rewrite Ui;
        pose proof (fun t' => put_inv t t' D D b l k (Z.of_nat (tcnt K t)) sent ks is I Hb Hl Hk Nk Ok ltac:(lia) Uk Ui) as PI
      | apply Z.eqb_neq in Ei; destruct (upd_some (tinds K t) (b * B + l) idx) as (is & Ui); [rewrite (i_li _ _ I); exact Lt|]; cbn [tinds w_cnt w_keys w_inds tact tcnt tnb tmaxc]; rewrite Ui;
        pose proof (fun t' => put_inv t t' D D b l k idx sent ks is I Hb Hl Hk Nk Ok ltac:(lia) Uk Ui) as PI ];
      (destruct enq; [destruct (upd (tact K t) _ key) as [ac|] eqn:Ua|]; intros Q; injection Q as <- <-; cbn [tnb tmaxc tcnt w_act w_inds w_cnt w_keys tact];
       (split; [reflexivity|split; [reflexivity|split; [reflexivity|]]]);
       try (split; [reflexivity|split; [reflexivity|]]);
       try (split; [reflexivity|split; [exact Ua|]]);
       try (split; [ match type of Ua with upd _ ?i _ = None => destruct (Nat.lt_ge_cases i (length (tact K t))) as [Q|Q]; [destruct (upd_some _ _ key Q) as (z & Zz); congruence | exact Q] end |]);
       eexists; (split; [apply Permutation_refl|]); apply PI; auto).
    all: (* full bucket *)
      apply Nat.eqb_eq in Lf; pose proof (proj1 (load_full t D I b Hb) Lf) as Fb;
      set (j := N.to_nat (rng_next y mod N.of_nat B)) in *;
      assert (Hj : j < B) by (unfold j; assert (rng_next y mod N.of_nat B < N.of_nat B)%N by (apply N.mod_lt; lia); lia);
      destruct (Fb j Hj) as (old & Hold & X); pose proof X as X'; unfold kat in X'; rewrite X';
      assert (Lt : b * B + j < tnb K t * B) by (apply slot_lt; auto);
      destruct (upd_some (tkeys K t) (b * B + j) k) as (ks & Uk); [rewrite (i_lk _ _ I); exact Lt|]; rewrite Uk;
      destruct (iat_some t D I b j Hb Hj) as (oldi & Xi); pose proof Xi as Xi'; unfold iat in Xi';
      destruct (i_placed _ _ I b j old oldi Hb Hj Hold X Xi) as (InD & Okold);
      destruct (in_split _ _ InD) as (D1 & D2 & ED);
      assert (PD : Permutation D ((old, oldi) :: D1 ++ D2)) by (rewrite ED; symmetry; apply Permutation_middle);
      assert (Hoi : (0 <= oldi)%Z) by (eapply (i_nonneg _ _ I); eauto);
      set (idx1 := if Z.eqb idx (-1) then Z.of_nat (tcnt K t) else idx);
      assert (Hi1 : (0 <= idx1)%Z) by (unfold idx1; destruct (Z.eqb_spec idx (-1)); lia);
      assert (Num : number K (w_keys K t ks) idx no
                    = (if Z.eqb idx (-1) then w_cnt K (w_keys K t ks) (S (tcnt K t)) else w_keys K t ks, idx1, if Z.eqb idx (-1) then Z.of_nat (tcnt K t) else no))
        by (unfold number, idx1; destruct (Z.eqb idx (-1)); reflexivity);
      rewrite Num;
      assert (Ti : tinds K (if Z.eqb idx (-1) then w_cnt K (w_keys K t ks) (S (tcnt K t)) else w_keys K t ks) = tinds K t) by (destruct (Z.eqb idx (-1)); reflexivity);
      rewrite Ti, Xi';
      destruct (upd_some (tinds K t) (b * B + j) idx1) as (is & Ui); [rewrite (i_li _ _ I); exact Lt|]; rewrite Ui;
      set (t2 := w_inds K (if Z.eqb idx (-1) then w_cnt K (w_keys K t ks) (S (tcnt K t)) else w_keys K t ks) is);
      assert (E2 : tkeys K t2 = ks /\ tinds K t2 = is /\ tnb K t2 = tnb K t /\ tmaxc K t2 = tmaxc K t /\ tact K t2 = tact K t
                   /\ tcnt K t2 = if Z.eqb idx (-1) then S (tcnt K t) else tcnt K t)
        by (unfold t2; destruct (Z.eqb idx (-1)); repeat split);
      destruct E2 as (E21 & E22 & E23 & E24 & E25 & E26);
      destruct (put_inv t t2 D (D1 ++ D2) b j k idx1 old ks is I Hb Hj Hk Nk Ok Hi1 Uk Ui E21 E22 E23 X) as (I2 & FM);
      [right; split; [exact Hold|]; exists oldi; split; [exact Xi|exact PD]|].
    - intros Q. injection Q as <- <-. cbn zeta. repeat split; auto.
      exists (old, oldi), ((k, idx1) :: D1 ++ D2). split; auto. fold idx1. rewrite PD. apply perm_swap.
    - intros Q. cbn zeta. fold idx1.
      assert (Nold : ~ In old (map fst ((k, idx1) :: D1 ++ D2))).
      { pose proof (Permutation_NoDup (Permutation_map fst PD) (i_nodup _ _ I)) as N. cbn in N. apply NoDup_cons_iff in N. cbn. intros [Y|Y]; [|tauto].
        apply Nk. rewrite Y. change old with (fst (old, oldi)). apply in_map. exact InD. }
      set (nbk := next_off K B hf0 hf1 hf2 (tnb K t) (b * B) old) in Q.
      assert (Nb : exists b', nbk = b' * B /\ b' < tnb K t /\ at_ok t2 old b').
      { assert (EqB : forall c, Nat.eqb (b * B) (c * B) = Nat.eqb b c).
        { intros c. destruct (Nat.eqb_spec b c) as [->|n]. apply Nat.eqb_refl. apply Nat.eqb_neq. intro Z. apply n.
          apply (slot_inj B b 0 c 0); lia. }
        unfold nbk, next_off. rewrite !EqB. eexists. split. reflexivity.
        pose proof (i_nb _ _ I) as Hnb.
        assert (G : forall h, slot_of K (tnb K t) h old < tnb K t) by (intros h; apply slot_of_lt; auto).
        unfold at_ok, b0, b1, b2. rewrite E23.
        destruct (Nat.eqb_spec b (slot_of K (tnb K t) hf0 old)).
        - split. apply G. right; left. split; auto. apply FM. rewrite <- e. exact Fb.
        - assert (F0 : full t (slot_of K (tnb K t) hf0 old)).
          { destruct Okold as [Z|[[_ Z]|[_ [Z _]]]]. exfalso; apply n; exact Z. exact Z. exact Z. }
          destruct (Nat.eqb_spec b (slot_of K (tnb K t) hf1 old)).
          + split. apply G. right; right. split; auto. split; apply FM; auto. rewrite <- e. exact Fb.
          + split. apply G. left; reflexivity. }
      destruct Nb as (b' & Eb' & Hb' & Ok'). rewrite Eb' in Q.
      rewrite <- E23 in Hb'.
      assert (Hom : (-1 <= oldi)%Z) by lia.
      specialize (IH _ _ _ _ _ _ _ _ _ _ _ I2 Hold Nold Hb' Ok' Hom Q). cbn zeta in IH.
      assert (Oi : Z.eqb oldi (-1) = false) by (apply Z.eqb_neq; lia). rewrite Oi in IH.
      assert (Pm : Permutation ((old, oldi) :: (k, idx1) :: D1 ++ D2) ((k, idx1) :: D)) by (rewrite PD; apply perm_swap).
      destruct IH as (H1 & H2 & H3 & H4). rewrite E25 in H4. split; [congruence|]. split; [congruence|]. split; [rewrite H3; exact E26|].
      destruct o; auto.
      + destruct H4 as (G1 & G2 & D' & G3 & G4). split; auto. split; auto. exists D'. split; auto. rewrite G3. exact Pm.
      + destruct H4 as (G1 & v & D' & G3 & G4). split; auto. exists v, D'. split; auto. rewrite G3. exact Pm.
      + destruct H4 as (G0 & G1 & G2 & D' & G3 & G4). split; auto. split; auto. split; auto. exists D'. split; auto. rewrite G3. exact Pm.
  Qed.
End P.
