From Verif Require Import Prelude ScanModel ScanSpec.

Lemma pow_ge n : n <= 2 ^ n.
      Proof. induction n; cbn; [lia|]. assert (1 <= 2 ^ n) by (apply Nat.neq_0_lt_0, Nat.pow_nonzero; lia). lia. Qed.

Section P.
  Context {A : Type}.
  Variable op : A -> A -> A.
  Notation mem := (nat -> A).
  Implicit Type m : mem.

  Lemma mset_eq m a x : mset m a x a = x.
  Proof. unfold mset. rewrite Nat.eqb_refl. reflexivity. Qed.
  Lemma mset_neq m a x b : b <> a -> mset m a x b = m b.
  Proof. intro H. unfold mset. destruct (Nat.eqb_spec b a); [contradiction|reflexivity]. Qed.

  (** fold of the input cells [fi+a, fi+a+c) starting from x *)
  Definition fseg m fi a c x := fold_left op (map (fun k => m (fi + k)) (seq a c)) x.

  Lemma fseg_S m fi a c x : fseg m fi a (S c) x = fseg m fi (S a) c (op x (m (fi + a))).
  Proof. reflexivity. Qed.
  Lemma fseg_snoc m fi a c x : fseg m fi a (S c) x = op (fseg m fi a c x) (m (fi + (a + c))).
  Proof. unfold fseg. rewrite seq_S, map_app, fold_left_app. reflexivity. Qed.
  Lemma fseg_ext m m' fi a c x : (forall k, a <= k < a + c -> m (fi + k) = m' (fi + k)) ->
    fseg m fi a c x = fseg m' fi a c x.
  Proof.
    intro H. unfold fseg. f_equal. apply map_ext_in. intros k Hk. apply in_seq in Hk. apply H. lia.
  Qed.

  Lemma contents_nth m f n i d : i < n -> nth i (contents m f n) d = m (f + i).
  Proof.
    intro H. unfold contents. rewrite nth_indep with (d' := m (f + 0)) by (rewrite map_length, seq_length; lia).
    rewrite (map_nth (fun k => m (f + k))). rewrite seq_nth by lia. reflexivity.
  Qed.

  Lemma incl_at_fseg m fi n i d : i < n -> incl_at op (contents m fi n) i d = fseg m fi 1 i (m fi).
  Proof.
    intro H. unfold incl_at, contents. destruct n as [|n]; [lia|]. cbn [seq map hd tl].
    rewrite firstn_map. unfold fseg. rewrite Nat.add_0_r. f_equal. f_equal.
    clear d. revert n H. generalize 1 as a. induction i as [|i IH]; intros a n H; [reflexivity|].
    destruct n; [lia|]. cbn [seq firstn]. f_equal. apply IH. lia.
  Qed.

  Lemma excl_at_fseg m fi n i init : i <= n -> excl_at op init (contents m fi n) i = fseg m fi 0 i init.
  Proof.
    intro H. unfold excl_at, contents. rewrite firstn_map. unfold fseg. f_equal. f_equal.
    revert n H. generalize 0 as a. induction i as [|i IH]; intros a n H; [reflexivity|].
    destruct n; [lia|]. cbn [seq firstn]. f_equal. apply IH. lia.
  Qed.

  (** ---- sequential ---- *)
  Lemma incl_loop_ok : forall c k fi fo prev m m0,
    (forall j, k <= j < k + c -> m (fi + j) = m0 (fi + j)) ->
    (fo <= fi \/ fi + (k + c) <= fo) ->
    (forall j, k <= j < k + c -> incl_loop op c k fi fo prev m (fo + j) = fseg m0 fi k (S (j - k)) prev) /\
    (forall a, ~ (fo + k <= a < fo + (k + c)) -> incl_loop op c k fi fo prev m a = m a).
  Proof.
    induction c as [|c IH]; intros k fi fo prev m m0 Hm Hd; cbn [incl_loop].
    - split; [intros j Hj; lia|auto].
    - set (p := op prev (m (fi + k))).
      assert (Ep : p = op prev (m0 (fi + k))) by (unfold p; rewrite Hm by lia; reflexivity).
      destruct (IH (S k) fi fo p (mset m (fo + k) p) m0) as [IH1 IH2].
      + intros j Hj. rewrite mset_neq by lia. apply Hm. lia.
      + lia.
      + split.
        * intros j Hj. destruct (Nat.eq_dec j k) as [->|Ne].
          -- rewrite IH2 by lia. rewrite mset_eq, Nat.sub_diag. cbn. exact Ep.
          -- rewrite IH1 by lia. rewrite fseg_S with (c := S (j - S k)) || idtac.
             replace (S (j - k)) with (S (S (j - S k))) by lia. rewrite (fseg_S m0 fi k). rewrite <- Ep. reflexivity.
        * intros a Ha. rewrite IH2 by lia. apply mset_neq. lia.
  Qed.

  Lemma seq_incl_ok fi fo n m : (fo <= fi \/ fi + n <= fo) ->
    (forall i, i < n -> seq_inclusive_scan op fi fo n m (fo + i) = incl_at op (contents m fi n) i (m fi)) /\
    (forall a, ~ (fo <= a < fo + n) -> seq_inclusive_scan op fi fo n m a = m a).
  Proof.
    intro Hd. destruct n as [|n]; cbn [seq_inclusive_scan].
    - split; [intros; lia|auto].
    - destruct (incl_loop_ok n 1 fi fo (m fi) (mset m fo (m fi)) m) as [H1 H2].
      + intros j Hj. destruct Hd; [apply mset_neq; lia|]. apply mset_neq. lia.
      + lia.
      + split.
        * intros i Hi. rewrite incl_at_fseg by lia. destruct i as [|i].
          -- rewrite Nat.add_0_r. rewrite H2 by lia. rewrite mset_eq. reflexivity.
          -- rewrite H1 by lia. replace (S (S i - 1)) with (S i) by lia. reflexivity.
        * intros a Ha. rewrite H2 by lia. apply mset_neq. lia.
  Qed.

  Lemma excl_loop_ok : forall c k fi fo init m m0,
    (forall j, k <= j < k + c -> m (fi + j) = m0 (fi + j)) ->
    (fo < fi \/ fi + (k + c) <= fo) ->
    (forall j, k < j <= k + c -> excl_loop op c k fi fo init m (fo + j) = fseg m0 fi k (j - k) init) /\
    (forall a, ~ (fo + k < a <= fo + (k + c)) -> excl_loop op c k fi fo init m a = m a).
  Proof.
    induction c as [|c IH]; intros k fi fo init m m0 Hm Hd; cbn [excl_loop].
    - split; [intros j Hj; lia|auto].
    - set (p := op init (m (fi + k))).
      assert (Ep : p = op init (m0 (fi + k))) by (unfold p; rewrite Hm by lia; reflexivity).
      destruct (IH (S k) fi fo p (mset m (fo + S k) p) m0) as [IH1 IH2].
      + intros j Hj. rewrite mset_neq by lia. apply Hm. lia.
      + lia.
      + split.
        * intros j Hj. destruct (Nat.eq_dec j (S k)) as [->|Ne].
          -- rewrite IH2 by lia. rewrite mset_eq. replace (S k - k) with 1 by lia. exact Ep.
          -- rewrite IH1 by lia.
             replace (j - k) with (S (j - S k)) by lia. rewrite (fseg_S m0 fi k). rewrite <- Ep. reflexivity.
        * intros a Ha. rewrite IH2 by lia. apply mset_neq. lia.
  Qed.

  Lemma seq_excl_ok fi fo n init m : (fo < fi \/ fi + (n - 1) <= fo) ->
    (forall i, i < n -> seq_exclusive_scan op fi fo n init m (fo + i) = excl_at op init (contents m fi n) i) /\
    (forall a, ~ (fo <= a < fo + n) -> seq_exclusive_scan op fi fo n init m a = m a).
  Proof.
    intro Hd. destruct n as [|n]; cbn [seq_exclusive_scan].
    - split; [intros; lia|auto].
    - destruct (excl_loop_ok n 0 fi fo init (mset m fo init) m) as [H1 H2].
      + intros j Hj. apply mset_neq. lia.
      + lia.
      + split.
        * intros i Hi. rewrite excl_at_fseg by lia. destruct i as [|i].
          -- rewrite Nat.add_0_r. rewrite H2 by lia. rewrite mset_eq. reflexivity.
          -- rewrite H1 by lia. replace (S i - 0) with (S i) by lia. reflexivity.
        * intros a Ha. rewrite H2 by lia. apply mset_neq. lia.
  Qed.

  Lemma red_loop_fseg : forall c k fi init m, red_loop op c k fi init m = fseg m fi k c init.
  Proof. induction c as [|c IH]; intros; cbn [red_loop]; [reflexivity|]. rewrite IH. reflexivity. Qed.

  Lemma seq_reduce_ok fi fo n init m :
    seq_reduce op fi fo n init m fo = fold_left op (contents m fi n) init /\
    (forall a, a <> fo -> seq_reduce op fi fo n init m a = m a).
  Proof.
    unfold seq_reduce. split.
    - rewrite mset_eq, red_loop_fseg. unfold fseg, contents. reflexivity.
    - intros a Ha. apply mset_neq. exact Ha.
  Qed.

  (** ---- OpenMP ---- *)
  Section Omp.
    Variable zero : A.
    Variables dist nths : nat.
    Hypothesis Hn : 1 <= nths.
    Notation st t := (st_of dist nths t).
    Notation ed t := (ed_of dist nths t).
    Notation act t := (active dist nths t).

      Lemma st_0 : st 0 = 0.
      Proof. unfold st_of. lia. Qed.

    Lemma nwork_cover : dist <= nwork dist nths * nths.
    Proof.
      unfold nwork. pose proof (Nat.div_mod (dist + nths - 1) nths ltac:(lia)) as E.
      pose proof (Nat.mod_upper_bound (dist + nths - 1) nths ltac:(lia)).
      rewrite Nat.mul_comm. lia.
    Qed.

    Lemma act_spec t : act t = true <-> nwork dist nths * t < dist.
    Proof.
      unfold active, ed_of, st_of. rewrite Nat.ltb_lt.
      split; [lia|]. intro H. assert (0 < nwork dist nths); [|lia].
      destruct (nwork dist nths) eqn:E; [|lia]. pose proof nwork_cover as C. rewrite E in C. lia.
    Qed.

    Lemma act_down t u : act t = true -> u <= t -> act u = true.
    Proof. rewrite !act_spec. intros H Hu. nia. Qed.

    Lemma act_ed_next t u : act t = true -> u < t -> ed u = st (S u) /\ st (S u) <= st t.
    Proof.
      rewrite act_spec. intros H Hu. unfold ed_of, st_of.
      assert (nwork dist nths * S u <= nwork dist nths * t) by (apply Nat.mul_le_mono_l; lia).
      rewrite Nat.mul_succ_r in *. lia.
    Qed.

    Lemma own_exists k : k < dist -> exists t, t < nths /\ act t = true /\ st t <= k < ed t.
    Proof.
      intro Hk. pose proof nwork_cover as C.
      assert (Hw : 0 < nwork dist nths) by (destruct (nwork dist nths); lia).
      exists (k / nwork dist nths).
      pose proof (Nat.div_mod k (nwork dist nths) ltac:(lia)) as E.
      pose proof (Nat.mod_upper_bound k (nwork dist nths) ltac:(lia)) as B.
      assert (Ht : k / nwork dist nths < nths).
      { apply Nat.div_lt_upper_bound; [lia|]. lia. }
      split; [exact Ht|]. split.
      - apply act_spec. lia.
      - unfold ed_of, st_of. lia.
    Qed.

    Lemma own_disjoint t u k : st t <= k < ed t -> st u <= k < ed u -> t = u.
    Proof.
      unfold ed_of, st_of. intros H1 H2.
      destruct (Nat.lt_trichotomy t u) as [L|[E|L]]; [|exact E|].
      - exfalso. assert (nwork dist nths * S t <= nwork dist nths * u) by (apply Nat.mul_le_mono_l; lia). lia.
      - exfalso. assert (nwork dist nths * S u <= nwork dist nths * t) by (apply Nat.mul_le_mono_l; lia). lia.
    Qed.

    (** generic: phases whose bodies are local *)
    Lemma fold_mset_each (g : nat -> A -> A) (p : nat -> bool) : forall ord (f : nat -> A), NoDup ord ->
      forall t, fold_left (fun f t => if p t then mset f t (g t (f t)) else f) ord f t
       = if existsb (Nat.eqb t) ord && p t then g t (f t) else f t.
    Proof.
      induction ord as [|u ord IH]; intros f ND t; [reflexivity|].
      inversion ND as [|? ? Hu ND']; subst. cbn [fold_left existsb]. rewrite IH by exact ND'.
      destruct (Nat.eqb_spec t u) as [->|Ne]; cbn [orb].
      - assert (E : existsb (Nat.eqb u) ord = false).
        { apply not_true_iff_false. intro H. apply existsb_exists in H. destruct H as (x & Hx & Ex).
          apply Nat.eqb_eq in Ex. subst. contradiction. }
        rewrite E. cbn [andb]. destruct (p u); [apply mset_eq|reflexivity].
      - replace ((if p u then mset f u (g u (f u)) else f) t) with (f t); [reflexivity|].
        destruct (p u); [symmetry; apply mset_neq; exact Ne|reflexivity].
    Qed.

    (** generic: memory phases *)
    Definition local_body (own : nat -> nat -> Prop) (rd : nat -> nat -> Prop) (body : nat -> mem -> mem) : Prop :=
      (forall t m a, ~ own t a -> body t m a = m a) /\
      (forall t m m', (forall a, rd t a -> m a = m' a) -> forall a, own t a -> body t m a = body t m' a) /\
      (forall t u a, t <> u -> own t a -> ~ rd u a) /\
      (forall t a, own t a -> rd t a) .

    Lemma fold_bodies own rd body : local_body own rd body -> forall ord m, NoDup ord ->
      (forall t a, In t ord -> own t a -> fold_left (fun m t => body t m) ord m a = body t m a) /\
      (forall a, (forall t, In t ord -> ~ own t a) -> fold_left (fun m t => body t m) ord m a = m a).
    Proof.
      intros (L1 & L2 & L3 & L4). induction ord as [|u ord IH]; intros m ND.
      - split; [intros t a []|auto].
      - inversion ND as [|? ? Hu ND']; subst. cbn [fold_left].
        destruct (IH (body u m) ND') as [IH1 IH2]. split.
        + intros t a [->|Ht] Ho.
          * apply IH2. intros t' Ht' Ho'. assert (t' <> t) by (intros ->; contradiction).
            apply (L3 t' t a); auto.
          * rewrite (IH1 t a Ht Ho). apply L2; [|exact Ho]. intros b Hb.
            apply L1. intro Hob. apply (L3 u t b); auto. intros ->; contradiction.
        + intros a Ha. rewrite IH2 by (intros t Ht; apply Ha; right; exact Ht).
          apply L1. apply Ha. left; reflexivity.
    Qed.

    Variable sched : nat -> list nat.
    Hypothesis Hs : fair nths sched.

    Lemma sched_nodup ph : NoDup (sched ph).
    Proof. eapply Permutation_NoDup; [apply Permutation_sym, Hs|apply seq_NoDup]. Qed.
    Lemma sched_in ph t : In t (sched ph) <-> t < nths.
    Proof.
      split; intro H.
      - eapply Permutation_in in H; [|apply Hs]. apply in_seq in H. lia.
      - eapply Permutation_in; [apply Permutation_sym, Hs|]. apply in_seq. lia.
    Qed.
    Lemma sched_ex ph t : existsb (Nat.eqb t) (sched ph) = (t <? nths).
    Proof.
      destruct (Nat.ltb_spec t nths) as [H|H].
      - apply existsb_exists. exists t. split; [apply sched_in; exact H|apply Nat.eqb_refl].
      - apply not_true_iff_false. intro E. apply existsb_exists in E. destruct E as (x & Hx & Ex).
        apply Nat.eqb_eq in Ex. subst. apply sched_in in Hx. lia.
    Qed.

    Hypothesis Hassoc : forall x y z, op x (op y z) = op (op x y) z.

    Lemma op_fold x y l : op x (fold_left op l y) = fold_left op l (op x y).
    Proof. revert y; induction l as [|z l IH]; intro y; cbn; [reflexivity|]. rewrite IH, Hassoc. reflexivity. Qed.

    Section Scans.
      Hypothesis Hcomm : forall x y, op x y = op y x.
      Variables fi fo : nat.
      Variable m0 : mem.
      Hypothesis Hal : fo = fi \/ fo + dist <= fi \/ fi + dist <= fo.

      (** inclusive fold of input [a, b], a <= b *)
      Definition I a b := fseg m0 fi (S a) (b - a) (m0 (fi + a)).
      Lemma I_join a b c : a <= b -> b < c -> op (I a b) (I (S b) c) = I a c.
      Proof.
        intros H1 H2. unfold I, fseg. rewrite op_fold.
        replace (c - a) with ((b - a) + S (c - S b)) by lia.
        rewrite seq_app, map_app, fold_left_app. cbn [seq map fold_left].
        replace (S a + (b - a)) with (S b) by lia. reflexivity.
      Qed.
      Lemma I_refl a : I a a = m0 (fi + a).
      Proof. unfold I. rewrite Nat.sub_diag. reflexivity. Qed.
      Lemma I_snoc a b : a <= b -> op (I a b) (m0 (fi + S b)) = I a (S b).
      Proof. intro H. rewrite <- I_refl. apply I_join; lia. Qed.

      (** chunk loops *)
      Lemma incl_chunk_ok : forall c k s res m, s < k -> res = I s (k - 1) ->
        (forall j, k <= j < k + c -> m (fi + j) = m0 (fi + j)) -> k + c <= dist ->
        fst (incl_chunk op c k fi fo res m) = I s (k + c - 1) /\
        (forall j, k <= j < k + c -> snd (incl_chunk op c k fi fo res m) (fo + j) = I s j) /\
        (forall a, ~ (fo + k <= a < fo + (k + c)) -> snd (incl_chunk op c k fi fo res m) a = m a).
      Proof.
        induction c as [|c IH]; intros k s res m Hk Hr Hm Hb; cbn [incl_chunk].
        - cbn. rewrite Nat.add_0_r. repeat split; auto. intros; lia.
        - set (r' := op res (m (fi + k))).
          assert (Er : r' = I s (S k - 1)).
          { unfold r'. rewrite Hm by lia. rewrite Hr. replace k with (S (k - 1)) at 2 by lia.
            rewrite I_snoc by lia. f_equal; lia. }
          destruct (IH (S k) s r' (mset m (fo + k) r')) as (H1 & H2 & H3); auto; try lia.
          + intros j Hj. rewrite mset_neq by lia. apply Hm. lia.
          + split; [rewrite H1; f_equal; lia|]. split.
            * intros j Hj. destruct (Nat.eq_dec j k) as [->|Ne].
              -- rewrite H3 by lia. rewrite mset_eq, Er. f_equal; lia.
              -- apply H2. lia.
            * intros a Ha. rewrite H3 by lia. apply mset_neq. lia.
      Qed.

      Lemma excl_chunk_ok : forall c k s res m, s < k -> res = I s (k - 1) -> (fo <> fi) ->
        (forall j, k <= j < k + c -> m (fi + j) = m0 (fi + j)) -> k + c <= dist ->
        fst (excl_chunk op c k fi fo res m) = I s (k + c - 1) /\
        (forall j, k <= j < k + c -> snd (excl_chunk op c k fi fo res m) (fo + j) = I s (j - 1)) /\
        (forall a, ~ (fo + k <= a < fo + (k + c)) -> snd (excl_chunk op c k fi fo res m) a = m a).
      Proof.
        induction c as [|c IH]; intros k s res m Hk Hr Hne Hm Hb; cbn [excl_chunk].
        - cbn. rewrite Nat.add_0_r. repeat split; auto. intros; lia.
        - set (m' := mset m (fo + k) res).
          assert (Er : op res (m' (fi + k)) = I s (S k - 1)).
          { unfold m'. rewrite mset_neq by lia. rewrite Hm by lia. rewrite Hr. replace k with (S (k - 1)) at 2 by lia.
            rewrite I_snoc by lia. f_equal; lia. }
          destruct (IH (S k) s (op res (m' (fi + k))) m') as (H1 & H2 & H3); auto; try lia.
          + intros j Hj. unfold m'. rewrite mset_neq by lia. apply Hm. lia.
          + split; [rewrite H1; f_equal; lia|]. split.
            * intros j Hj. destruct (Nat.eq_dec j k) as [->|Ne].
              -- rewrite H3 by lia. unfold m'. rewrite mset_eq, Hr. reflexivity.
              -- apply H2. lia.
            * intros a Ha. rewrite H3 by lia. apply mset_neq. lia.
      Qed.

      Lemma fix_chunk_ok : forall c k x m,
        (forall j, k <= j < k + c -> fix_chunk op c k fo x m (fo + j) = op (m (fo + j)) x) /\
        (forall a, ~ (fo + k <= a < fo + (k + c)) -> fix_chunk op c k fo x m a = m a).
      Proof.
        induction c as [|c IH]; intros k x m; cbn [fix_chunk].
        - split; [intros; lia|auto].
        - destruct (IH (S k) x (mset m (fo + k) (op (m (fo + k)) x))) as [H1 H2]. split.
          + intros j Hj. destruct (Nat.eq_dec j k) as [->|Ne].
            * rewrite H2 by lia. apply mset_eq.
            * rewrite H1 by lia. rewrite mset_neq by lia. reflexivity.
          + intros a Ha. rewrite H2 by lia. apply mset_neq. lia.
      Qed.

      (** phase 1, generic in the value written by the first phase *)
      Definition own t a := exists j, st t <= j < ed t /\ a = fo + j.
      Definition fair_st (s : @ost A) := True.

      (** what phase 1 establishes *)
      Definition After1 (out1 : nat -> nat -> A) (s : @ost A) : Prop :=
        (forall t, t < nths -> act t = true -> o_loc s t = I (st t) (ed t - 1) /\ o_tmp s t = I (st t) (ed t - 1)) /\
        (forall t j, t < nths -> st t <= j < ed t -> o_mem s (fo + j) = out1 t j) /\
        (forall a, ~ (fo <= a < fo + dist) -> o_mem s a = m0 a).

      Lemma ed_le t : ed t <= dist.
      Proof. unfold ed_of. lia. Qed.

      Section Phase1.
        Variable body : @ost A -> nat -> @ost A.
        Variable out1 : nat -> nat -> A.
        Hypothesis Hbody : forall s t, t < nths ->
          (forall j, st t <= j < ed t -> o_mem s (fi + j) = m0 (fi + j)) ->
          (forall j, st t <= j < ed t -> o_mem (body s t) (fo + j) = out1 t j) /\
          (forall a, ~ (exists j, st t <= j < ed t /\ a = fo + j) -> o_mem (body s t) a = o_mem s a) /\
          (act t = true -> o_loc (body s t) t = I (st t) (ed t - 1) /\ o_tmp (body s t) t = I (st t) (ed t - 1)) /\
          (forall u, u <> t -> o_loc (body s t) u = o_loc s u /\ o_tmp (body s t) u = o_tmp s u).

        Lemma phase1_fold : forall ord done s, NoDup ord -> (forall t, In t ord -> t < nths /\ ~ In t done) ->
          (forall t, In t done -> t < nths) ->
          (forall j, (forall t, In t done -> ~ st t <= j < ed t) -> j < dist -> o_mem s (fi + j) = m0 (fi + j)) ->
          (forall t, In t done -> act t = true -> o_loc s t = I (st t) (ed t - 1) /\ o_tmp s t = I (st t) (ed t - 1)) ->
          (forall t j, In t done -> st t <= j < ed t -> o_mem s (fo + j) = out1 t j) ->
          (forall a, ~ (fo <= a < fo + dist) -> o_mem s a = m0 a) ->
          let s' := fold_left body ord s in
          (forall t, In t done \/ In t ord -> act t = true -> o_loc s' t = I (st t) (ed t - 1) /\ o_tmp s' t = I (st t) (ed t - 1)) /\
          (forall t j, In t done \/ In t ord -> st t <= j < ed t -> o_mem s' (fo + j) = out1 t j) /\
          (forall a, ~ (fo <= a < fo + dist) -> o_mem s' a = m0 a).
        Proof.
          induction ord as [|u ord IH]; intros done s ND Hord Hdone Hin Hloc Hout Hfr; cbn zeta; cbn [fold_left].
          - repeat split; intros; try (destruct H as [H|[]]); try apply Hloc; auto.
          - inversion ND as [|? ? Hu ND']; subst.
            destruct (Hord u (or_introl eq_refl)) as [Hun Hud].
            destruct (Hbody s u Hun) as (B1 & B2 & B3 & B4).
            { intros j Hj. apply Hin; [|pose proof (ed_le u); lia].
              intros t Ht Hjt. apply Hud. rewrite <- (own_disjoint t u j Hjt Hj). exact Ht. }
            destruct (IH (u :: done) (body s u)) as (J1 & J2 & J3); auto.
            + intros t Ht. split; [apply Hord; right; exact Ht|]. intros [->|Hd]; [contradiction|].
              destruct (Hord t (or_intror Ht)) as [_ G]. contradiction.
            + intros t [<-|Ht]; auto.
            + intros j Hj Hjd. rewrite B2; [apply Hin; [intros t Ht; apply Hj; right; exact Ht|exact Hjd]|].
              intros (j' & Hj' & E). pose proof (ed_le u).
              assert (j' = j \/ j' <> j) as [->|Hne] by lia.
              * apply (Hj u); [left; reflexivity|exact Hj'].
              * destruct Hal as [->|[D|D]]; lia.
            + intros t [<-|Ht] Ha; [apply B3; exact Ha|].
              destruct (B4 t) as [E1 E2]; [intros ->; contradiction|]. rewrite E1, E2. apply Hloc; auto.
            + intros t j [<-|Ht] Hj; [apply B1; exact Hj|].
              rewrite B2; [apply Hout; auto|]. intros (j' & Hj' & E).
              assert (j' = j) by lia. subst j'. apply Hud. rewrite (own_disjoint u t j Hj' Hj). exact Ht.
            + intros a Ha. rewrite B2; [apply Hfr; exact Ha|]. intros (j' & Hj' & E). pose proof (ed_le u). lia.
            + cbn zeta in *. repeat split.
              * apply J1; [|assumption]. destruct H as [H|[H|H]]; [left; right|left; left|right]; auto.
              * apply J1; [|assumption]. destruct H as [H|[H|H]]; [left; right|left; left|right]; auto.
              * intros t j H Hj. apply J2; [|assumption]. destruct H as [H|[H|H]]; [left; right|left; left|right]; auto.
              * exact J3.
        Qed.

        Lemma phase1_ok loc0 ph : After1 out1 (fold_left body (sched ph) (mkO m0 loc0 loc0)).
        Proof.
          destruct (phase1_fold (sched ph) [] (mkO m0 loc0 loc0)) as (J1 & J2 & J3).
          - apply sched_nodup.
          - intros t Ht. split; [apply sched_in in Ht; exact Ht|intros []].
          - intros t [].
          - intros; reflexivity.
          - intros t [].
          - intros t j [].
          - intros; reflexivity.
          - unfold After1. repeat split.
            + apply J1; auto. right. apply sched_in. exact H.
            + apply J1; auto. right. apply sched_in. exact H.
            + intros t j Ht Hj. apply J2; auto. right. apply sched_in. exact Ht.
            + exact J3.
        Qed.
      End Phase1.

      Lemma act_lt t : act t = true <-> st t < ed t.
      Proof. unfold active. apply Nat.ltb_lt. Qed.

      Lemma incl_body_ok s t : t < nths ->
          (forall j, st t <= j < ed t -> o_mem s (fi + j) = m0 (fi + j)) ->
          let s' := incl_phase1 op zero dist nths fi fo s t in
          (forall j, st t <= j < ed t -> o_mem s' (fo + j) = I (st t) j) /\
          (forall a, ~ (exists j, st t <= j < ed t /\ a = fo + j) -> o_mem s' a = o_mem s a) /\
          (act t = true -> o_loc s' t = I (st t) (ed t - 1) /\ o_tmp s' t = I (st t) (ed t - 1)) /\
          (forall u, u <> t -> o_loc s' u = o_loc s u /\ o_tmp s' u = o_tmp s u).
      Proof.
        intros Ht Hm. unfold incl_phase1. pose proof (act_lt t) as Ha.
        destruct (Nat.ltb_spec (st t) (ed t)) as [L|L]; cbn zeta.
        - pose proof (ed_le t).
          destruct (incl_chunk_ok (ed t - (st t + 1)) (st t + 1) (st t) (o_mem s (fi + st t))
             (mset (o_mem s) (fo + st t) (o_mem s (fi + st t)))) as (H1 & H2 & H3).
          + lia.
          + replace (st t + 1 - 1) with (st t) by lia. rewrite I_refl. apply Hm. lia.
          + intros j Hj. rewrite mset_neq by lia. apply Hm. lia.
          + lia.
          + destruct (incl_chunk op _ _ fi fo _ _) as [r m'] eqn:E. cbn [fst snd] in *.
            cbn [o_mem o_loc o_tmp]. replace (st t + 1 + (ed t - (st t + 1)) - 1) with (ed t - 1) in H1 by lia.
            repeat split.
            * intros j Hj. destruct (Nat.eq_dec j (st t)) as [->|Ne].
              -- rewrite H3 by lia. rewrite mset_eq, I_refl. apply Hm. lia.
              -- apply H2. lia.
            * intros a Hna. assert (~ (fo + st t <= a < fo + ed t)).
              { intro. apply Hna. exists (a - fo). lia. }
              rewrite H3 by lia. apply mset_neq. lia.
            * rewrite mset_eq. exact H1.
            * rewrite mset_eq. exact H1.
            * apply mset_neq; assumption.
            * apply mset_neq; assumption.
        - cbn [o_mem o_loc o_tmp]. split; [intros; lia|]. split; [reflexivity|]. split.
          + intro H. apply Ha in H. lia.
          + intros u Hu. split; [reflexivity|apply mset_neq; exact Hu].
      Qed.

      Lemma excl_body_ok init s t : fo <> fi -> t < nths ->
          (forall j, st t <= j < ed t -> o_mem s (fi + j) = m0 (fi + j)) ->
          let s' := excl_phase1 op zero dist nths fi fo init s t in
          (forall j, st t <= j < ed t -> o_mem s' (fo + j) = if j =? st t then init else I (st t) (j - 1)) /\
          (forall a, ~ (exists j, st t <= j < ed t /\ a = fo + j) -> o_mem s' a = o_mem s a) /\
          (act t = true -> o_loc s' t = I (st t) (ed t - 1) /\ o_tmp s' t = I (st t) (ed t - 1)) /\
          (forall u, u <> t -> o_loc s' u = o_loc s u /\ o_tmp s' u = o_tmp s u).
      Proof.
        intros Hne Ht Hm. unfold excl_phase1. pose proof (act_lt t) as Ha.
        destruct (Nat.ltb_spec (st t) (ed t)) as [L|L]; cbn zeta.
        - pose proof (ed_le t).
          assert (E0 : mset (o_mem s) (fo + st t) init (fi + st t) = m0 (fi + st t)).
          { rewrite mset_neq by lia. apply Hm. lia. }
          rewrite E0.
          destruct (excl_chunk_ok (ed t - (st t + 1)) (st t + 1) (st t) (m0 (fi + st t))
             (mset (o_mem s) (fo + st t) init)) as (H1 & H2 & H3).
          + lia.
          + replace (st t + 1 - 1) with (st t) by lia. rewrite I_refl. reflexivity.
          + exact Hne.
          + intros j Hj. rewrite mset_neq by lia. apply Hm. lia.
          + lia.
          + destruct (excl_chunk op _ _ fi fo _ _) as [r m'] eqn:E. cbn [fst snd] in *.
            cbn [o_mem o_loc o_tmp]. replace (st t + 1 + (ed t - (st t + 1)) - 1) with (ed t - 1) in H1 by lia.
            repeat split.
            * intros j Hj. destruct (Nat.eqb_spec j (st t)) as [->|Ne].
              -- rewrite H3 by lia. apply mset_eq.
              -- apply H2. lia.
            * intros a Hna. assert (~ (fo + st t <= a < fo + ed t)).
              { intro. apply Hna. exists (a - fo). lia. }
              rewrite H3 by lia. apply mset_neq. lia.
            * rewrite mset_eq. exact H1.
            * rewrite mset_eq. exact H1.
            * apply mset_neq; assumption.
            * apply mset_neq; assumption.
        - cbn [o_mem o_loc o_tmp]. split; [intros; lia|]. split; [reflexivity|]. split.
          + intro H. apply Ha in H. lia.
          + intros u Hu. split; [reflexivity|apply mset_neq; exact Hu].
      Qed.

      (** stride phases *)
      Definition WInv (w : nat) (mm : mem) (s : @ost A) : Prop :=
        (forall a, o_mem s a = mm a) /\
        (forall t, t < nths -> act t = true ->
           o_loc s t = I (st (S t - w)) (ed t - 1) /\ o_tmp s t = I (st (S t - w)) (ed t - 1)).

      Lemma strideA_fold stride : forall ord (s : @ost A), let s' := fold_left (scan_strideA op dist nths stride) ord s in
        o_mem s' = o_mem s /\ o_loc s' = o_loc s /\
        o_tmp s' = fold_left (fun f t => if (stride <=? t) && act t then mset f t (op (f t) (o_loc s (t - stride))) else f) ord (o_tmp s).
      Proof.
        induction ord as [|u ord IH]; intro s; cbn zeta; cbn [fold_left]; [auto|].
        destruct (IH (scan_strideA op dist nths stride s u)) as (E1 & E2 & E3). rewrite E1, E2, E3.
        unfold scan_strideA. destruct ((stride <=? u) && act u); cbn [o_mem o_loc o_tmp]; auto.
      Qed.
      Lemma strideB_fold stride : forall ord (s : @ost A), let s' := fold_left (scan_strideB dist nths stride) ord s in
        o_mem s' = o_mem s /\ o_tmp s' = o_tmp s /\
        o_loc s' = fold_left (fun f t => if (stride <=? t) && act t then mset f t (o_tmp s t) else f) ord (o_loc s).
      Proof.
        induction ord as [|u ord IH]; intro s; cbn zeta; cbn [fold_left]; [auto|].
        destruct (IH (scan_strideB dist nths stride s u)) as (E1 & E2 & E3). rewrite E1, E2, E3.
        unfold scan_strideB. destruct ((stride <=? u) && act u); cbn [o_mem o_loc o_tmp]; auto.
      Qed.

      Lemma stride_ok w mm s ph : 1 <= w -> WInv w mm s ->
        WInv (w * 2) mm (fold_left (scan_strideB dist nths w) (sched (S ph))
                          (fold_left (scan_strideA op dist nths w) (sched ph) s)).
      Proof.
        intros Hw (HM & HL).
        destruct (strideA_fold w (sched ph) s) as (A1 & A2 & A3).
        set (s1 := fold_left (scan_strideA op dist nths w) (sched ph) s) in *.
        destruct (strideB_fold w (sched (S ph)) s1) as (B1 & B2 & B3).
        set (s2 := fold_left (scan_strideB dist nths w) (sched (S ph)) s1) in *.
        assert (T1 : forall t, t < nths -> act t = true -> o_tmp s1 t = I (st (S t - w * 2)) (ed t - 1)).
        { intros t Ht Ha. rewrite A3.
          rewrite (fold_mset_each (fun t x => op x (o_loc s (t - w))) (fun t => (w <=? t) && act t)) by apply sched_nodup.
          rewrite sched_ex. destruct (Nat.ltb_spec t nths); [|lia]. cbn [andb].
          destruct (HL t Ht Ha) as [_ HT].
          destruct (Nat.leb_spec w t) as [L|L]; cbn [andb].
          - rewrite Ha. rewrite HT.
            assert (Hu : act (t - w) = true) by (eapply act_down; eauto; lia).
            destruct (HL (t - w) ltac:(lia) Hu) as [HLu _]. rewrite HLu, Hcomm.
            replace (st (S t - w)) with (S (ed (t - w) - 1)).
            + replace (S (t - w) - w) with (S t - w * 2) by lia. apply I_join.
              * pose proof (act_lt (t - w)) as Hau. apply Hau in Hu.
                assert (st (S t - w * 2) <= st (t - w)) by (unfold st_of; apply Nat.mul_le_mono_l; lia). lia.
              * apply act_lt in Ha. apply act_lt in Hu.
                assert (ed (t - w) <= st t); [|lia].
                destruct (act_ed_next t (t - w)) as [E1 E2]; [apply act_lt; exact Ha|lia|]. lia.
            + destruct (act_ed_next t (t - w) Ha ltac:(lia)) as [E1 E2].
              replace (S t - w) with (S (t - w)) by lia. apply act_lt in Hu. lia.
          - rewrite HT. f_equal. f_equal. lia. }
        split.
        - intro a. rewrite B1, A1. apply HM.
        - intros t Ht Ha. split; [|rewrite B2; apply T1; auto].
          rewrite B3.
          rewrite (fold_mset_each (fun t x => o_tmp s1 t) (fun t => (w <=? t) && act t)) by apply sched_nodup.
          rewrite sched_ex. destruct (Nat.ltb_spec t nths); [|lia]. cbn [andb]. rewrite Ha, andb_true_r.
          destruct (Nat.leb_spec w t) as [L|L]; [apply T1; auto|].
          rewrite A2. destruct (HL t Ht Ha) as [E _]. rewrite E. f_equal. f_equal. lia.
      Qed.

      Lemma strides_ok mm : forall fuel w ph s, 1 <= w -> nths <= w * 2 ^ fuel -> WInv w mm s ->
        let r := scan_strides op fuel dist nths w sched ph s in
        exists w', nths <= w' /\ WInv w' mm (fst r).
      Proof.
        induction fuel as [|f IH]; intros w ph s Hw Hf HI; cbn [scan_strides].
        - cbn in Hf. exists w. cbn. split; [lia|exact HI].
        - destruct (Nat.ltb_spec w nths) as [L|L].
          + apply IH; [lia| |apply stride_ok; auto].
            rewrite Nat.pow_succ_r' in Hf. lia.
          + exists w. cbn. split; [lia|exact HI].
      Qed.

      Lemma final_fold : forall ord (s : @ost A),
        let s' := fold_left (scan_final op dist nths fo) ord s in
        o_loc s' = o_loc s /\
        o_mem s' = fold_left (fun m t => if negb (t =? 0) && (st t <? ed t)
              then fix_chunk op (ed t - st t) (st t) fo (o_loc s (t - 1)) m else m) ord (o_mem s).
      Proof.
        induction ord as [|u ord IH]; intro s; cbn zeta; cbn [fold_left]; [auto|].
        destruct (IH (scan_final op dist nths fo s u)) as (E1 & E2). rewrite E1, E2.
        unfold scan_final. destruct (negb (u =? 0) && (st u <? ed u)); cbn [o_mem o_loc o_tmp]; auto.
      Qed.

      Lemma final_ok w mm s ph : nths <= w -> WInv w mm s ->
        let m' := o_mem (fold_left (scan_final op dist nths fo) (sched ph) s) in
        (forall t j, t < nths -> st t <= j < ed t ->
           m' (fo + j) = if t =? 0 then mm (fo + j) else op (mm (fo + j)) (I 0 (st t - 1))) /\
        (forall a, ~ (fo <= a < fo + dist) -> m' a = mm a).
      Proof.
        intros Hw (HM & HL). cbn zeta. destruct (final_fold (sched ph) s) as [_ E]. rewrite E. clear E.
        set (body := fun t m => if negb (t =? 0) && (st t <? ed t)
              then fix_chunk op (ed t - st t) (st t) fo (o_loc s (t - 1)) m else m).
        assert (HB : local_body (fun t a => exists j, st t <= j < ed t /\ a = fo + j)
                       (fun t a => exists j, st t <= j < ed t /\ a = fo + j) body).
        { unfold local_body, body. split; [|split; [|split]].
          - intros t m a Ha. destruct (negb (t =? 0) && (st t <? ed t)) eqn:C; [|reflexivity].
            apply (fix_chunk_ok (ed t - st t) (st t) (o_loc s (t - 1)) m).
            intro. apply Ha. exists (a - fo). apply andb_true_iff in C. lia.
          - intros t m m' Hmm a (j & Hj & ->).
            destruct (negb (t =? 0) && (st t <? ed t)) eqn:C; [|apply Hmm; eauto].
            destruct (fix_chunk_ok (ed t - st t) (st t) (o_loc s (t - 1)) m) as [F1 _].
            destruct (fix_chunk_ok (ed t - st t) (st t) (o_loc s (t - 1)) m') as [F1' _].
            rewrite F1, F1' by lia. rewrite (Hmm (fo + j)) by eauto. reflexivity.
          - intros t u a Ht (j & Hj & ->) (j' & Hj' & E). assert (j' = j) by lia. subst j'.
            apply Ht. eapply own_disjoint; eauto.
          - auto. }
        destruct (fold_bodies _ _ _ HB (sched ph) (o_mem s) (sched_nodup ph)) as [F1 F2].
        change (fun m t => if negb (t =? 0) && (st t <? ed t)
              then fix_chunk op (ed t - st t) (st t) fo (o_loc s (t - 1)) m else m) with (fun m t => body t m).
        split.
        - intros t j Ht Hj. rewrite (F1 t) by (try apply sched_in; eauto).
          unfold body. destruct (Nat.eqb_spec t 0) as [->|Nt]; cbn [negb andb].
          + apply HM.
          + destruct (Nat.ltb_spec (st t) (ed t)); [|lia].
            destruct (fix_chunk_ok (ed t - st t) (st t) (o_loc s (t - 1)) (o_mem s)) as [F _].
            rewrite F by lia. rewrite HM. f_equal.
            assert (Ha : act t = true) by (apply act_lt; lia).
            assert (Ha' : act (t - 1) = true) by (eapply act_down; eauto; lia).
            destruct (HL (t - 1) ltac:(lia) Ha') as [E _]. rewrite E.
            replace (S (t - 1) - w) with 0 by lia.
            destruct (act_ed_next t (t - 1) Ha ltac:(lia)) as [E1 _]. rewrite E1.
            replace (S (t - 1)) with t by lia. f_equal. unfold st_of. lia.
        - intros a Ha. rewrite F2; [apply HM|]. intros t Ht (j & Hj & ->). pose proof (ed_le t). lia.
      Qed.

      Lemma After1_WInv out1 s : After1 out1 s -> WInv 1 (o_mem s) s.
      Proof.
        intros (H1 & H2 & H3). split; [auto|]. intros t Ht Ha. rewrite Nat.sub_succ, Nat.sub_0_r. apply H1; auto.
      Qed.

      Lemma omp_incl_I loc0 :
        let r := omp_inclusive_scan op zero nths sched loc0 fi fo dist m0 in
        (forall i, i < dist -> r (fo + i) = I 0 i) /\
        (forall a, ~ (fo <= a < fo + dist) -> r a = m0 a).
      Proof.
        unfold omp_inclusive_scan.
        set (s1 := fold_left (incl_phase1 op zero dist nths fi fo) (sched 0) (mkO m0 loc0 loc0)).
        assert (H1 : After1 (fun t j => I (st t) j) s1).
        { apply phase1_ok. intros s t Ht Hm. apply incl_body_ok; auto. }
        pose proof (strides_ok (o_mem s1) nths 1 1 s1 ltac:(lia)) as G.
        destruct (scan_strides op nths dist nths 1 sched 1 s1) as [s2 ph]. cbn [fst] in G.
        destruct G as (w & Hw & HW); [pose proof (pow_ge nths); lia|eapply After1_WInv; eauto|].
        destruct (final_ok w (o_mem s1) s2 ph Hw HW) as [F1 F2].
        destruct H1 as (A1 & A2 & A3). split.
        - intros i Hi. destruct (own_exists i Hi) as (t & Ht & Ha & Hj).
          rewrite (F1 t i Ht Hj). rewrite (A2 t i Ht Hj).
          destruct (Nat.eqb_spec t 0) as [->|Nt]; [rewrite st_0; reflexivity|].
          rewrite Hcomm.
          assert (0 < st t).
          { destruct (act_ed_next t 0 Ha ltac:(lia)) as [E1 E2].
            assert (act 0 = true) by (eapply act_down; eauto; lia).
            rewrite act_lt in H. lia. }
          replace (st t) with (S (st t - 1)) at 2 by lia.
          apply I_join; lia.
        - intros a Ha. rewrite F2 by exact Ha. apply A3. exact Ha.
      Qed.

      Lemma omp_excl_I init loc0 : fo <> fi -> (forall x, op init x = x) ->
        let r := omp_exclusive_scan op zero nths sched loc0 fi fo dist init m0 in
        (forall i, i < dist -> r (fo + i) = if i =? 0 then init else I 0 (i - 1)) /\
        (forall a, ~ (fo <= a < fo + dist) -> r a = m0 a).
      Proof.
        intros Hne Hid. unfold omp_exclusive_scan.
        set (s1 := fold_left (excl_phase1 op zero dist nths fi fo init) (sched 0) (mkO m0 loc0 loc0)).
        assert (H1 : After1 (fun t j => if j =? st t then init else I (st t) (j - 1)) s1).
        { apply phase1_ok. intros s t Ht Hm. apply excl_body_ok; auto. }
        pose proof (strides_ok (o_mem s1) nths 1 1 s1 ltac:(lia)) as G.
        destruct (scan_strides op nths dist nths 1 sched 1 s1) as [s2 ph]. cbn [fst] in G.
        destruct G as (w & Hw & HW); [pose proof (pow_ge nths); lia|eapply After1_WInv; eauto|].
        destruct (final_ok w (o_mem s1) s2 ph Hw HW) as [F1 F2].
        destruct H1 as (A1 & A2 & A3). split.
        - intros i Hi. destruct (own_exists i Hi) as (t & Ht & Ha & Hj).
          rewrite (F1 t i Ht Hj). rewrite (A2 t i Ht Hj).
          destruct (Nat.eqb_spec t 0) as [->|Nt]; [rewrite st_0; reflexivity|].
          assert (0 < st t).
          { destruct (act_ed_next t 0 Ha ltac:(lia)) as [E1 E2].
            assert (act 0 = true) by (eapply act_down; eauto; lia).
            rewrite act_lt in H. lia. }
          destruct (Nat.eqb_spec i 0); [lia|].
          destruct (Nat.eqb_spec i (st t)) as [->|Ne]; [apply Hid|].
          rewrite Hcomm. replace (st t) with (S (st t - 1)) at 2 by lia.
          apply I_join; lia.
        - intros a Ha. rewrite F2 by exact Ha. apply A3. exact Ha.
      Qed.
    End Scans.

    (** reduce *)
    Section Red.
      Variable e : A.
      Hypothesis He1 : forall x, op e x = x.
      Hypothesis He2 : forall x, op x e = x.
      Variables fi fo : nat.
      Variable m0 : mem.

      Lemma fseg_op x a c y : op x (fseg m0 fi a c y) = fseg m0 fi a c (op x y).
      Proof. unfold fseg. apply op_fold. Qed.

      (** fold of [st t, st u) clipped to dist *)
      Definition cut t := Nat.min (st t) dist.
      Definition R a b := fseg m0 fi a (b - a) e.
      Lemma R_join a b c : a <= b -> b <= c -> op (R a b) (R b c) = R a c.
      Proof.
        intros H1 H2. unfold R. rewrite fseg_op, He2. unfold fseg.
        replace (c - a) with ((b - a) + (c - b)) by lia.
        rewrite seq_app, map_app, fold_left_app. replace (a + (b - a)) with b by lia. reflexivity.
      Qed.
      Lemma cut_mono t u : t <= u -> cut t <= cut u.
      Proof. intro H. unfold cut, st_of. assert (nwork dist nths * t <= nwork dist nths * u) by (apply Nat.mul_le_mono_l; lia). lia. Qed.

      Lemma res_eq t m : (forall a, m a = m0 a) ->
        (if st t <? ed t then red_loop op (ed t - st t) (st t) fi e m else e) = R (cut t) (cut (S t)).
      Proof.
        intro Hm. unfold R, cut, ed_of. replace (st (S t)) with (st t + nwork dist nths) by (unfold st_of; lia).
        destruct (Nat.ltb_spec (st t) (Nat.min (st t + nwork dist nths) dist)) as [L|L].
        - rewrite red_loop_fseg. rewrite (Nat.min_l (st t) dist) by lia. apply fseg_ext. intros; apply Hm.
        - replace (Nat.min (st t + nwork dist nths) dist - Nat.min (st t) dist) with 0 by lia. reflexivity.
      Qed.

      Definition RInv (w : nat) (s : @ost A) : Prop :=
        (forall a, o_mem s a = m0 a) /\
        (forall t, t < nths -> o_loc s t = R (cut t) (cut (Nat.min (t + w) nths)) /\
                               o_tmp s t = R (cut t) (cut (Nat.min (t + w) nths))).

      Lemma red_phase1_fold : forall ord (s : @ost A), NoDup ord -> (forall a, o_mem s a = m0 a) ->
        let s' := fold_left (red_phase1 op dist nths fi e) ord s in
        (forall a, o_mem s' a = m0 a) /\
        (forall t, (In t ord -> o_loc s' t = R (cut t) (cut (S t)) /\ o_tmp s' t = R (cut t) (cut (S t))) /\
                   (~ In t ord -> o_loc s' t = o_loc s t /\ o_tmp s' t = o_tmp s t)).
      Proof.
        induction ord as [|u ord IH]; intros s ND Hm; cbn zeta; cbn [fold_left].
        - split; [exact Hm|]. intro t. split; [intros []|auto].
        - inversion ND as [|? ? Hu ND']; subst.
          destruct (IH (red_phase1 op dist nths fi e s u) ND') as [J1 J2]; [exact Hm|].
          split; [exact J1|]. intro t. destruct (J2 t) as [K1 K2]. split.
          + intros [->|Hin]; [|apply K1; exact Hin].
            destruct (K2 Hu) as [E1 E2]. rewrite E1, E2. unfold red_phase1; cbn [o_loc o_tmp].
            rewrite !mset_eq. rewrite (res_eq t (o_mem s) Hm). auto.
          + intros Hno. destruct K2 as [E1 E2]; [intro; apply Hno; right; auto|]. rewrite E1, E2.
            assert (t <> u) by (intros ->; apply Hno; left; auto).
            unfold red_phase1; cbn [o_loc o_tmp]. rewrite !mset_neq by assumption. auto.
      Qed.

      Lemma redA_fold stride : forall ord (s : @ost A), let s' := fold_left (red_strideA op nths stride) ord s in
        o_mem s' = o_mem s /\ o_loc s' = o_loc s /\
        o_tmp s' = fold_left (fun f t => if t + stride <? nths then mset f t (op (f t) (o_loc s (t + stride))) else f) ord (o_tmp s).
      Proof.
        induction ord as [|u ord IH]; intro s; cbn zeta; cbn [fold_left]; [auto|].
        destruct (IH (red_strideA op nths stride s u)) as (E1 & E2 & E3). rewrite E1, E2, E3.
        unfold red_strideA. destruct (u + stride <? nths); cbn [o_mem o_loc o_tmp]; auto.
      Qed.
      Lemma redB_fold stride : forall ord (s : @ost A), let s' := fold_left (red_strideB nths stride) ord s in
        o_mem s' = o_mem s /\ o_tmp s' = o_tmp s /\
        o_loc s' = fold_left (fun f t => if t + stride <? nths then mset f t (o_tmp s t) else f) ord (o_loc s).
      Proof.
        induction ord as [|u ord IH]; intro s; cbn zeta; cbn [fold_left]; [auto|].
        destruct (IH (red_strideB nths stride s u)) as (E1 & E2 & E3). rewrite E1, E2, E3.
        unfold red_strideB. destruct (u + stride <? nths); cbn [o_mem o_loc o_tmp]; auto.
      Qed.

      Lemma red_stride_ok w s ph : 1 <= w -> RInv w s ->
        RInv (w * 2) (fold_left (red_strideB nths w) (sched (S ph)) (fold_left (red_strideA op nths w) (sched ph) s)).
      Proof.
        intros Hw (HM & HL).
        destruct (redA_fold w (sched ph) s) as (A1 & A2 & A3).
        set (s1 := fold_left (red_strideA op nths w) (sched ph) s) in *.
        destruct (redB_fold w (sched (S ph)) s1) as (B1 & B2 & B3).
        set (s2 := fold_left (red_strideB nths w) (sched (S ph)) s1) in *.
        assert (T1 : forall t, t < nths -> o_tmp s1 t = R (cut t) (cut (Nat.min (t + w * 2) nths))).
        { intros t Ht. rewrite A3.
          rewrite (fold_mset_each (fun t x => op x (o_loc s (t + w))) (fun t => t + w <? nths)) by apply sched_nodup.
          rewrite sched_ex. destruct (Nat.ltb_spec t nths); [|lia]. cbn [andb].
          destruct (HL t Ht) as [_ HT].
          destruct (Nat.ltb_spec (t + w) nths) as [L|L].
          - rewrite HT. destruct (HL (t + w) L) as [HLu _]. rewrite HLu.
            rewrite (Nat.min_l (t + w) nths) by lia.
            rewrite R_join; [|apply cut_mono; lia|apply cut_mono; lia].
            f_equal. f_equal. lia.
          - rewrite HT. f_equal. f_equal. lia. }
        split.
        - intro a. rewrite B1, A1. apply HM.
        - intros t Ht. split; [|rewrite B2; apply T1; auto].
          rewrite B3.
          rewrite (fold_mset_each (fun t x => o_tmp s1 t) (fun t => t + w <? nths)) by apply sched_nodup.
          rewrite sched_ex. destruct (Nat.ltb_spec t nths); [|lia]. cbn [andb].
          destruct (Nat.ltb_spec (t + w) nths) as [L|L]; [apply T1; auto|].
          rewrite A2. destruct (HL t Ht) as [E _]. rewrite E. f_equal. f_equal. lia.
      Qed.

      Lemma red_strides_ok : forall fuel w ph s, 1 <= w -> nths <= w * 2 ^ fuel -> RInv w s ->
        exists w', nths <= w' /\ RInv w' (fst (red_strides op fuel nths w sched ph s)).
      Proof.
        induction fuel as [|f IH]; intros w ph s Hw Hf HI; cbn [red_strides].
        - cbn in Hf. exists w. cbn. split; [lia|exact HI].
        - destruct (Nat.ltb_spec w nths) as [L|L].
          + apply IH; [lia| |apply red_stride_ok; auto].
            rewrite Nat.pow_succ_r' in Hf. lia.
          + exists w. cbn. split; [lia|exact HI].
      Qed.

      Lemma red_final_fold : forall ord (s : @ost A), NoDup ord ->
        let s' := fold_left (red_final fo) ord s in
        (In 0 ord -> o_mem s' fo = o_tmp s 0) /\ o_tmp s' = o_tmp s /\ (forall a, a <> fo -> o_mem s' a = o_mem s a) /\
        (~ In 0 ord -> o_mem s' fo = o_mem s fo).
      Proof.
        induction ord as [|u ord IH]; intros s ND; cbn zeta; cbn [fold_left].
        - repeat split; auto. intros [].
        - inversion ND as [|? ? Hu ND']; subst. destruct (IH (red_final fo s u) ND') as (J1 & J2 & J3 & J4).
          unfold red_final in *. destruct (Nat.eqb_spec u 0) as [->|Nu]; cbn [o_mem o_loc o_tmp] in *.
          + repeat split.
            * intros _. rewrite J4 by exact Hu. apply mset_eq.
            * exact J2.
            * intros a Ha. rewrite J3 by exact Ha. apply mset_neq; exact Ha.
            * intro H. exfalso. apply H. left; reflexivity.
          + repeat split.
            * intros [H|H]; [congruence|]. auto.
            * exact J2.
            * exact J3.
            * intro H. apply J4. intro; apply H; right; auto.
      Qed.

      Lemma omp_reduce_ok loc0 :
        let r := omp_reduce op nths sched loc0 fi fo dist e m0 in
        r fo = fold_left op (contents m0 fi dist) e /\ (forall a, a <> fo -> r a = m0 a).
      Proof.
        unfold omp_reduce.
        destruct (red_phase1_fold (sched 0) (mkO m0 loc0 loc0) (sched_nodup 0)) as [J1 J2]; [reflexivity|].
        set (s1 := fold_left (red_phase1 op dist nths fi e) (sched 0) (mkO m0 loc0 loc0)) in *.
        assert (H1 : RInv 1 s1).
        { split; [exact J1|]. intros t Ht. replace (Nat.min (t + 1) nths) with (S t) by lia.
          apply J2. apply sched_in. exact Ht. }
        pose proof (red_strides_ok nths 1 1 s1 ltac:(lia)) as G.
        destruct (red_strides op nths nths 1 sched 1 s1) as [s2 ph]. cbn [fst] in G.
        destruct G as (w & Hw & HM & HL); [pose proof (pow_ge nths); lia|exact H1|].
        destruct (red_final_fold (sched ph) s2 (sched_nodup ph)) as (F1 & F2 & F3 & _). cbn zeta. split.
        - rewrite F1 by (apply sched_in; lia). destruct (HL 0 ltac:(lia)) as [_ E]. rewrite E.
          replace (Nat.min (0 + w) nths) with nths by lia.
          unfold R, cut, fseg, contents. rewrite st_0. rewrite Nat.min_0_l.
          rewrite (Nat.min_r (st nths)) by apply nwork_cover.
          rewrite Nat.sub_0_r. reflexivity.
        - intros a Ha. rewrite F3 by exact Ha. apply HM.
      Qed.
    End Red.
  End Omp.

  (** final forms *)
  Lemma omp_incl_ok zero nths sched loc0 fi fo n m :
    (forall x y z, op x (op y z) = op (op x y) z) -> (forall x y, op x y = op y x) ->
    1 <= nths -> fair nths sched -> (fo = fi \/ fo + n <= fi \/ fi + n <= fo) ->
    let r := omp_inclusive_scan op zero nths sched loc0 fi fo n m in
    (forall i, i < n -> r (fo + i) = incl_at op (contents m fi n) i (m fi)) /\
    (forall a, ~ (fo <= a < fo + n) -> r a = m a).
  Proof.
    intros Ha Hc Hn Hs Hal. destruct (omp_incl_I zero n nths Hn sched Hs Ha Hc fi fo m Hal loc0) as [H1 H2].
    cbn zeta. split; [|exact H2]. intros i Hi. rewrite H1 by exact Hi. rewrite incl_at_fseg by exact Hi.
    unfold I. rewrite Nat.sub_0_r, Nat.add_0_r. reflexivity.
  Qed.

  Lemma omp_excl_ok zero nths sched loc0 fi fo n init m :
    (forall x y z, op x (op y z) = op (op x y) z) -> (forall x y, op x y = op y x) ->
    (forall x, op init x = x) ->
    1 <= nths -> fair nths sched -> (fo + n <= fi \/ fi + n <= fo) ->
    let r := omp_exclusive_scan op zero nths sched loc0 fi fo n init m in
    (forall i, i < n -> r (fo + i) = excl_at op init (contents m fi n) i) /\
    (forall a, ~ (fo <= a < fo + n) -> r a = m a).
  Proof.
    intros Ha Hc He Hn Hs Hal. destruct n as [|n0] eqn:En.
    - destruct (Nat.eq_dec fo fi) as [E|E].
      + (* empty range: nothing is written *)
        cbn zeta. split; [intros; lia|]. intros a _.
        assert (E0 : forall t, st_of 0 nths t <? ed_of 0 nths t = false).
        { intro t. apply Nat.ltb_ge. unfold ed_of. lia. }
        unfold omp_exclusive_scan.
        assert (P1 : forall ord s, o_mem (fold_left (excl_phase1 op zero 0 nths fi fo init) ord s) = o_mem s).
        { induction ord as [|u ord IH]; intro s; cbn [fold_left]; [reflexivity|]. rewrite IH.
          unfold excl_phase1. rewrite E0. reflexivity. }
        assert (P2 : forall fuel w ph s, o_mem (fst (scan_strides op fuel 0 nths w sched ph s)) = o_mem s).
        { induction fuel as [|f IH]; intros w ph s; cbn [scan_strides]; [reflexivity|].
          destruct (w <? nths); [|reflexivity]. rewrite IH.
          destruct (strideB_fold 0 nths w (sched (S ph)) (fold_left (scan_strideA op 0 nths w) (sched ph) s)) as (B1 & _).
          rewrite B1. destruct (strideA_fold 0 nths w (sched ph) s) as (A1 & _). exact (f_equal (fun f => f) A1). }
        assert (P3 : forall ord s, o_mem (fold_left (scan_final op 0 nths fo) ord s) = o_mem s).
        { induction ord as [|u ord IH]; intro s; cbn [fold_left]; [reflexivity|]. rewrite IH.
          unfold scan_final. rewrite E0, andb_false_r. reflexivity. }
        specialize (P2 nths 1 1 (fold_left (excl_phase1 op zero 0 nths fi fo init) (sched 0) {| o_mem := m; o_loc := loc0; o_tmp := loc0 |})).
        destruct (scan_strides op nths 0 nths 1 sched 1 _) as [s2 ph]. cbn [fst] in P2.
        rewrite P3, P2, P1. reflexivity.
      + destruct (omp_excl_I zero 0 nths Hn sched Hs Ha Hc fi fo m ltac:(lia) init loc0 E He) as [H1 H2].
        cbn zeta. split; [intros; lia|exact H2].
    - rewrite <- En in *.
      destruct (omp_excl_I zero n nths Hn sched Hs Ha Hc fi fo m ltac:(lia) init loc0 ltac:(lia) He) as [H1 H2].
      cbn zeta. split; [|exact H2]. intros i Hi. rewrite H1 by exact Hi. rewrite excl_at_fseg by lia.
      destruct i as [|i]; [reflexivity|]. cbn [Nat.eqb]. rewrite fseg_S. rewrite He.
      unfold I. rewrite Nat.add_0_r. f_equal. lia.
  Qed.
End P.
