From Verif Require Import Prelude HashTableModel HashTableSpec HashTableProofs HpModel.
Local Open Scope nat_scope.

Section P.
Context {K : Type}.
Variable keq : forall a b : K, {a = b} + {a <> b}.
Variable sent : K.
Variable hash : K -> Z.
Variable junk : K.
Notation table := (@table K).

Definition with_cnt (t : table) (c : nat) : table :=
  {| keys := keys t; inds := inds t; cnt := c; act := act t; tsize := tsize t |}.

Lemma probe_cnt fuel (t : table) k c e : probe keq sent fuel (with_cnt t c) k e = probe keq sent fuel t k e.
Proof.
  revert e. induction fuel as [|f IH]; intros e; simpl; destruct (nth_error (keys t) e); auto;
    destruct (keq k0 sent); auto; destruct (keq k0 k); auto.
Qed.
Lemma query_from_cnt fuel (t : table) k c e : query_from keq fuel (with_cnt t c) k e = query_from keq fuel t k e.
Proof.
  revert e. induction fuel as [|f IH]; intros e; simpl; destruct (nth_error (keys t) e); auto;
    destruct (nth_error (inds t) e); auto; destruct (keq k k0); auto; destruct (z =? -1)%Z; auto.
Qed.
Lemma query_cnt fuel (t : table) k c : query keq hash fuel (with_cnt t c) k = query keq hash fuel t k.
Proof. unfold query, entry. simpl. destruct (tsize t =? 0); auto. unfold home at 1. simpl. fold (home hash t k). rewrite query_from_cnt. reflexivity. Qed.

Lemma upd_same {A} (l : list A) i x : nth_error l i = Some x -> upd l i x = Some l.
Proof.
  revert i. induction l as [|h l IH]; intros [|i] H; simpl in *; try discriminate; [congruence|].
  rewrite IH by auto. reflexivity.
Qed.

(** Reinserting entry i is inserting with the counter at i. *)
Lemma insert_id_ok fuel (t : table) k i t' :
  nth_error (act t) i = Some k -> insert keq sent hash fuel (with_cnt t i) k = Ok (t', Z.of_nat i) ->
  insert_id keq sent hash fuel t k (Z.of_nat i) = Ok (with_cnt t' (cnt t), true) /\ act t' = act t /\ cnt t' = S i.
Proof.
  intros Ha H. unfold insert in H. unfold insert_id. cbn [with_cnt tsize] in H. destruct (tsize t =? 0) eqn:E0; [discriminate|].
  rewrite probe_cnt in H. change (home hash (with_cnt t i) k) with (home hash t k) in H.
  destruct (probe keq sent fuel t k (home hash t k)) as [[[|] e]| |]; try discriminate.
  - cbn [with_cnt keys inds act cnt] in H. rewrite (upd_same _ _ _ Ha) in H.
    destruct (upd (keys t) e k); [|discriminate]. destruct (upd (inds t) e (Z.of_nat i)); [|discriminate].
    inversion H; subst. split; [reflexivity|]. split; reflexivity.
  - inversion H. lia.
Qed.

Lemma reinsert_ok n ks : NoDup ks -> ~ In sent ks -> length ks <= n ->
  forall m i (t : table), tsize t = n -> i + m = length ks -> rep sent hash (with_cnt t i) (firstn i ks) ->
    firstn (length ks) (act t) = ks ->
    exists t', reinsert keq sent hash n t i m = Ok t' /\ rep sent hash (with_cnt t' (length ks)) ks /\
      tsize t' = n /\ cnt t' = cnt t /\ act t' = act t.
Proof.
  intros ND NS Hn. induction m as [|m IH]; intros i t Ht Him R Ha.
  - exists t. replace i with (length ks) in R by lia. rewrite firstn_all in R. simpl. auto.
  - destruct (nth_error_lt_some ks i) as [k Hk]; [lia|].
    assert (Hka : nth_error (act t) i = Some k).
    { rewrite <- Hk. rewrite <- Ha at 1. rewrite <- (firstn_skipn (length ks) (act t)) at 1.
      rewrite nth_error_app1; [reflexivity|]. rewrite Ha. lia. }
    assert (HF : firstn (S i) ks = firstn i ks ++ [k]).
    { clear - Hk. revert i Hk. induction ks as [|a ks IH]; intros [|i] H; simpl in *; try discriminate; [congruence|].
      f_equal. apply IH. exact H. }
    assert (NI : ~ In k (firstn i ks)).
    { assert (ND' : NoDup (firstn (S i) ks)).
      { rewrite <- (firstn_skipn (S i) ks) in ND. clear - ND. revert ND. generalize (firstn (S i) ks). intros l. induction l; intros H; [constructor|].
        simpl in H. inversion H; subst. constructor; [intros X; apply H2; apply in_or_app; auto|auto]. }
      rewrite HF in ND'. clear - ND'. intros X. apply NoDup_remove_2 in ND'. rewrite app_nil_r in ND'. auto. }
    assert (Hks : k <> sent) by (intros ->; apply NS; eapply nth_error_In; eauto).
    assert (Hl : length (firstn i ks) = i) by (rewrite firstn_length; lia).
    destruct (insert_ok keq sent hash (with_cnt t i) (firstn i ks) k R Hks) as (t1 & E1 & R1 & S1).
    { right. rewrite Hl. cbn [with_cnt tsize]. lia. }
    cbn [with_cnt tsize] in E1, S1.
    destruct (in_dec keq k (firstn i ks)) as [X|_]; [contradiction|]. rewrite Hl in E1.
    destruct (insert_id_ok (tsize t) t k i t1 Hka E1) as (E2 & A2 & C2).
    cbn [reinsert]. rewrite Hka. rewrite Ht in E2. rewrite E2.
    destruct (IH (S i) (with_cnt t1 (cnt t))) as (t2 & E3 & R3 & S3 & C3 & A3).
    + cbn [with_cnt tsize]. congruence.
    + lia.
    + rewrite HF. replace (with_cnt (with_cnt t1 (cnt t)) (S i)) with t1; [exact R1|]. rewrite <- C2. destruct t1; reflexivity.
    + cbn [with_cnt act]. rewrite A2. exact Ha.
    + exists t2. split; [exact E3|]. split; [exact R3|]. cbn [with_cnt cnt act] in *. repeat split; congruence.
Qed.

Lemma table_size_pos e : 0 < e -> 0 < table_size e.
Proof. intros H. unfold table_size. destruct (Nat.eqb_spec e 0); [lia|]. assert (2 ^ Nat.log2_up e <> 0) by (apply Nat.pow_nonzero; lia). lia. Qed.
Lemma vresize_length l n : length (vresize junk l n) = n.
Proof. unfold vresize. rewrite app_length, firstn_length, repeat_length. lia. Qed.
Lemma vresize_first l n m : m <= n -> m <= length l -> firstn m (vresize junk l n) = firstn m l.
Proof.
  intros A B. unfold vresize. rewrite firstn_app, firstn_length, firstn_firstn.
  replace (m - Nat.min n (length l)) with 0 by lia. simpl. rewrite app_nil_r. f_equal. lia.
Qed.
Lemma emptied_ok e c l ks : 0 < e -> NoDup ks -> ~ In sent ks -> length ks <= table_size e -> length ks <= length l ->
  firstn (length ks) l = ks ->
  exists t', reinsert keq sent hash (table_size e) (emptied sent (table_size e) c (vresize junk l (table_size e))) 0 (length ks) = Ok t' /\
    rep sent hash (with_cnt t' (length ks)) ks /\ tsize t' = table_size e /\ cnt t' = c /\ act t' = vresize junk l (table_size e).
Proof.
  intros He ND NS Hn Hl Ha. destruct (size_odd e) as [G|]; [|lia].
  apply (reinsert_ok (table_size e) ks ND NS Hn (length ks) 0); [reflexivity|lia| |].
  - apply (rep_cleared sent hash _ (table_size e)); [apply table_size_pos; auto|auto|].
    unfold cleared. cbn. repeat split; auto. apply vresize_length.
  - cbn [emptied act]. rewrite vresize_first by lia. exact Ha.
Qed.
Lemma firstn_nodup {A} (l : list A) m : NoDup l -> NoDup (firstn m l).
Proof.
  rewrite <- (firstn_skipn m l) at 1. generalize (firstn m l). intros l0. induction l0; intros H; [constructor|].
  simpl in H. inversion H; subst. constructor; [intros X; apply H2; apply in_or_app; auto|auto].
Qed.
Lemma firstn_in {A} (l : list A) m x : In x (firstn m l) -> In x l.
Proof. intros H. rewrite <- (firstn_skipn m l). apply in_or_app. auto. Qed.
End P.
