(** Sequences with repetitions, as long as no bucket overflows: nothing is ever displaced. *)
From Verif Require Import Prelude BchtModel BchtSpec BchtProofs BchtProofs2.
Local Open Scope nat_scope.

Section P.
  Variable K : Type.
  Variable keqb : K -> K -> bool.
  Variable sent : K.
  Variable B : nat.
  Variables hf0 hf1 hf2 : K -> N.
  Hypothesis keqb_ok : forall a b, keqb a b = true <-> a = b.
  Hypothesis Bpos : 0 < B.
  Notation table := (table K).
  Notation inv := (inv K sent B hf0 hf1 hf2).
  Notation kat := (kat K B).
  Notation insert_key := (insert_key K keqb sent B hf0 hf1 hf2).
  Notation insert_all := (insert_all K keqb sent B hf0 hf1 hf2).
  Notation bucket := (bucket K B).
  Notation holds := (holds K sent B hf0 hf1 hf2).
  Notation firsts := (firsts K keqb).
  Notation expected := (expected K keqb).

  (** every stored key lies in its first bucket *)
  Definition primary (t : table) := forall b j k, b < tnb K t -> j < B -> k <> sent -> kat t b j = Some k -> b = b0 K hf0 t k.

  (** one round of the loop in a bucket with a free slot *)
  Lemma chain_free rest t y off key k idx no enq o t' :
    load K keqb sent (bucket (tkeys K t) off) <> B ->
    chain K keqb sent B hf0 hf1 hf2 rest t y off key k idx no enq = (o, t') ->
    tkeys K t' = tkeys K t \/ upd (tkeys K t) (off + load K keqb sent (bucket (tkeys K t) off)) k = Some (tkeys K t').
  Proof.
    intros H. destruct rest; cbn [chain]; destruct (occurs K keqb k (bucket (tkeys K t) off)); try (intros Q; injection Q as <- <-; left; reflexivity);
      rewrite (proj2 (Nat.eqb_neq _ _) H); cbn [negb];
      destruct (nth_error (tkeys K t) _) as [x|]; try (intros Q; injection Q as <- <-; left; reflexivity);
      destruct (keqb x sent); try (intros Q; injection Q as <- <-; left; reflexivity);
      destruct (upd (tkeys K t) _ k) as [ks|] eqn:U; try (intros Q; injection Q as <- <-; left; reflexivity);
      unfold number; destruct (Z.eqb idx (-1)); cbn [tinds w_cnt w_keys w_inds tact];
      destruct (upd (tinds K t) _ _); try (intros Q; injection Q as <- <-; right; reflexivity);
      destruct enq; try (intros Q; injection Q as <- <-; right; reflexivity);
      destruct (upd (tact K t) _ _); intros Q; injection Q as <- <-; right; reflexivity.
  Qed.

  Lemma NoDup_keys t D b n : inv t D -> b < tnb K t -> n <= B -> full K sent B t b ->
    exists l, NoDup l /\ length l = n /\ forall k, In k l -> k <> sent /\ exists j, j < n /\ kat t b j = Some k.
  Proof.
    intros I Hb. induction n as [|n IH]; intros Hn F.
    - exists []. split. constructor. split; auto. intros k [].
    - destruct IH as (l & N & L & P); auto. lia. destruct (F n) as (x & Hx & E). lia.
      exists (x :: l). split; [|split].
      + constructor; auto. intros X. destruct (P x X) as (_ & j & Hj & E').
        destruct (i_uniq _ _ _ _ _ _ _ _ I b j b n x Hb ltac:(lia) Hb ltac:(lia) Hx E' E). lia.
      + cbn. lia.
      + intros k [<-|X]. eauto. destruct (P k X) as (Hk & j & Hj & E'). split; auto. exists j. split; auto.
  Qed.

  (** a new key finds room in its first bucket *)
  Lemma not_full t ks k all : holds t ks -> primary t -> ~ In k ks -> (forall x, In x (k :: ks) -> In x all) -> fits K B hf0 (tnb K t) all ->
    ~ full K sent B t (b0 K hf0 t k).
  Proof.
    intros (I & C & L & A) P Nk Sub Ft F. pose proof (i_nb _ _ _ _ _ _ _ _ I) as Hnb.
    assert (Hb : b0 K hf0 t k < tnb K t) by (apply (slot_of_lt K B Bpos); auto).
    destruct (NoDup_keys t _ _ B I Hb ltac:(lia) F) as (l & Nl & Ll & Pl).
    assert (M : forall x, In x l -> In x ks /\ b0 K hf0 t x = b0 K hf0 t k).
    { intros x X. destruct (Pl x X) as (Hx & j & Hj & E). destruct (iat_some K sent B hf0 hf1 hf2 Bpos t _ I _ j Hb Hj) as (i & Ei).
      destruct (i_placed _ _ _ _ _ _ _ _ I _ j x i Hb Hj Hx E Ei) as (Y & _). apply numb_in in Y. split. eapply nth_error_In; apply Y.
      symmetry. eapply P; eauto. }
    specialize (Ft (hf0 k mod N.of_nat (tnb K t))%N (k :: l)). cbn in Ft. rewrite Ll in Ft. cut (S B <= B); [lia|]. apply Ft.
    - constructor; auto. intros X. apply Nk. apply M. exact X.
    - intros x [<-|X]. split; auto. apply Sub. left; auto. destruct (M x X) as (Y & Z). split. apply Sub. right; auto.
      unfold b0, slot_of in Z. apply N2Nat.inj. exact Z.
  Qed.

  Lemma existsb_in k seen : existsb (keqb k) seen = true <-> In k seen.
  Proof. apply (occurs_iff K keqb keqb_ok). Qed.
  Lemma firsts_incl ks : forall seen x, In x seen -> In x (firsts seen ks).
  Proof. induction ks as [|k ks IH]; intros seen x H; cbn; auto. destruct (existsb (keqb k) seen); apply IH; auto. apply in_or_app; auto. Qed.

  Lemma insert_all_fits ks : forall t seen all, holds t seen -> primary t -> ~ In sent ks -> (forall x, In x seen \/ In x ks -> In x all) ->
    fits K B hf0 (tnb K t) all ->
    exists t', insert_all t ks = (expected seen ks, t') /\ holds t' (firsts seen ks) /\ primary t'.
  Proof.
    induction ks as [|k ks IH]; intros t seen all H P Ns Sub Ft; cbn [BchtModel.insert_all BchtSpec.expected BchtSpec.firsts].
    - eauto.
    - assert (Hk : k <> sent) by (intros ->; apply Ns; left; auto). pose proof H as (I & C & L & A). pose proof (i_nb _ _ _ _ _ _ _ _ I) as Hnb.
      assert (Hb : b0 K hf0 t k < tnb K t) by (apply (slot_of_lt K B Bpos); auto).
      destruct (existsb (keqb k) seen) eqn:Ex.
      + apply existsb_in in Ex.
        assert (O : occurs K keqb k (bucket (tkeys K t) (b0 K hf0 t k * B)) = true).
        { apply (occurs_iff K keqb keqb_ok). apply (in_bucket K sent B hf0 hf1 hf2 Bpos t _ I); auto. apply In_nth_error in Ex. destruct Ex as (i & Ei).
          destruct (i_stored _ _ _ _ _ _ _ _ I k (Z.of_nat i)) as (b & j & Hb' & Hj & E & _). apply numb_in. rewrite Nat2Z.id. split; [lia|auto].
          exists j. split; auto. rewrite <- (P b j k Hb' Hj Hk E). exact E. }
        assert (E : insert_key t k = (Exists, t)).
        { rewrite insert_key_chain by auto. destruct (tmaxc K t - 1); cbn [chain]; rewrite O; reflexivity. }
        rewrite E. destruct (IH t seen all H P) as (t' & E' & G); auto. intros X; apply Ns; right; auto. intros x [X|X]; apply Sub; cbn; auto.
        rewrite E'. eauto.
      + assert (Nk : ~ In k seen). { intros X. apply existsb_in in X. congruence. }
        assert (NF : ~ full K sent B t (b0 K hf0 t k)).
        { apply (not_full t seen k all H P Nk); auto. intros x X; apply Sub; cbn in *; tauto. }
        destruct (insert_key t k) as (o, t1) eqn:E.
        assert (Ld : load K keqb sent (bucket (tkeys K t) (b0 K hf0 t k * B)) <> B).
        { intros X. apply NF. apply (load_full K keqb sent B hf0 hf1 hf2 keqb_ok Bpos t _ I _ Hb). exact X. }
        assert (Nk' : ~ In k (map fst (numb seen))) by (rewrite numb_keys; exact Nk).
        destruct (insert_step K keqb sent B hf0 hf1 hf2 keqb_ok Bpos t _ k o t1 I Hk Nk' E) as (S1 & _ & _ & _).
        pose proof E as E0. rewrite insert_key_chain in E0 by auto.
        pose proof (chain_free _ _ _ _ _ _ _ _ _ _ _ Ld E0) as Pt.
        assert (P1 : primary t1).
        { intros b j x Hb' Hj Hx X. unfold b0. rewrite S1. rewrite S1 in Hb'. destruct Pt as [Pt|Pt].
          - apply (P b j x Hb' Hj Hx). unfold BchtProofs.kat in *. rewrite <- Pt. exact X.
          - pose proof (load_le K keqb sent B Bpos (bucket (tkeys K t) (b0 K hf0 t k * B))) as Ll.
            rewrite (bucket_length K B Bpos _ (tnb K t) _ (i_lk _ _ _ _ _ _ _ _ I) Hb) in Ll.
            rewrite (put_kat K B Bpos t t1 _ _ _ _ Pt eq_refl) in X by (auto; lia).
            destruct (_ && _)%bool eqn:Q. injection X as <-. apply andb_true_iff in Q. destruct Q as (Q & _). apply Nat.eqb_eq in Q. exact (eq_sym Q).
            exact (P b j x Hb' Hj Hx X). }
        destruct (holds_insert K keqb sent B hf0 hf1 hf2 keqb_ok Bpos t seen k o t1 H Hk Nk E) as [(-> & H1)|(-> & _)].
        * destruct (IH t1 (seen ++ [k]) all H1 P1) as (t' & E' & G). intros X; apply Ns; right; auto.
          intros x [X|X]; apply Sub; cbn; auto. apply in_app_or in X. destruct X as [X|[<-|[]]]; auto. rewrite S1. exact Ft.
          rewrite E'. eauto.
        * exfalso. revert E0. clear - Ld. destruct (tmaxc K t - 1); cbn [chain]; destruct (occurs K keqb k _); try discriminate;
            rewrite (proj2 (Nat.eqb_neq _ _) Ld); cbn [negb]; destruct (nth_error (tkeys K t) _) as [x|]; try discriminate; destruct (keqb x sent); try discriminate;
            destruct (upd (tkeys K t) _ k); try discriminate; destruct (number K _ _ _) as ((t2, i2), n2); destruct (upd (tinds K t2) _ _); try discriminate;
            destruct (upd (tact K _) _ _); discriminate.
  Qed.
  Lemma construct_primary cap maxc : primary (construct K sent B cap maxc).
  Proof. intros b j k _ _ Hk E. exfalso. apply Hk. unfold BchtProofs.kat in E. cbn in E. eapply nth_error_repeat_some. exact E. Qed.
End P.
