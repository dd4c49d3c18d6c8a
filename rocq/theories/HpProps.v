(** * C112: growing a HashTable keeps its entries *)
From Verif Require Import Prelude HashTableModel HashTableSpec HashTableProofs HpModel HpProofs.
Local Open Scope nat_scope.

Section Props.
Context {K : Type}.
Variable keq : forall a b : K, {a = b} + {a <> b}.
Variable sent : K.
Variable hash : K -> Z.
Variable junk : K.

(** [t] is a table for [e] expected entries after insertions of distinct keys [ks], first to last. *)
Definition built (e : nat) (ks : list K) (t : @table K) : Prop :=
  exists t0 l vs, 0 < e /\ cleared sent t0 (table_size e) /\ ~ In sent l /\ insertions keq [] l = (ks, vs) /\
    length ks <= table_size e /\ insert_all keq sent hash (table_size e) t0 l = Ok (t, vs).
Lemma built_rep e ks t : built e ks t -> rep sent hash t ks /\ tsize t = table_size e /\ 0 < e.
Proof.
  intros (t0 & l & vs & He & C & Hn & E & Hlen & Hins). destruct (size_odd e) as [G|]; [|lia].
  pose proof (table_size_pos e He) as Hp. pose proof (proj1 C) as Hs.
  pose proof (rep_cleared sent hash t0 _ Hp G C) as R. rewrite <- Hs in *.
  destruct (insert_all_ok keq sent hash l t0 [] R) as (t2 & A & R' & S2).
  - apply Forall_forall. intros x Hx ->. auto.
  - rewrite E. auto.
  - rewrite E in *. simpl in *. rewrite A in Hins. inversion Hins; subst. auto.
Qed.

(** [t] numbers exactly the keys [ks], in order.  As in C31, the last conjunct is for tables that are not
    full and whose slot size - 127 is empty. *)
Definition numbers (ks : list K) (t : @table K) : Prop :=
  firstn (length ks) (act t) = ks /\
  (length ks < tsize t -> (forall s, s + 127 = tsize t -> nth_error (keys t) s = Some sent) ->
   forall k, k <> sent -> exists x, query keq hash (tsize t) t k = Ok x /\ answer ks k x).
Lemma rep_numbers ks (t : @table K) c : rep sent hash (with_cnt t c) ks -> numbers ks t.
Proof.
  intros R. split; [apply R|]. intros A B k Hk.
  rewrite <- (query_cnt keq hash (tsize t) t k c).
  apply (query_ok keq sent hash (with_cnt t c) ks k R Hk A B).
Qed.

(** resize for any number of expected entries stays inside the arrays, ends, and keeps every key, its index and
    the counter; the size never shrinks. *)
Theorem C112_resize e ks t expected : built e ks t ->
  exists t', resize keq sent hash junk t expected = Ok t' /\
    tsize t' = Nat.max (table_size e) (table_size expected) /\ cnt t' = length ks /\ numbers ks t'.
Proof.
  intros B. destruct (built_rep _ _ _ B) as (R & S & He). unfold resize.
  destruct (Nat.leb_spec (table_size expected) (tsize t)) as [L|L].
  - exists t. split; [reflexivity|]. split; [lia|]. split; [apply R|]. apply (rep_numbers ks t (cnt t)).
    destruct t; exact R.
  - assert (Hx : 0 < expected). { destruct expected; [simpl in L; unfold table_size in L; simpl in L; lia|lia]. }
    assert (Hl : length ks <= tsize t).
    { pose proof (r_list _ _ _ _ R) as F. pose proof (r_act _ _ _ _ R). rewrite <- F. rewrite firstn_length. lia. }
    destruct (emptied_ok keq sent hash junk expected (cnt t) (act t) ks Hx) as (t' & E & R' & S' & C' & A').
    + apply R.
    + apply R.
    + lia.
    + rewrite (r_act _ _ _ _ R). lia.
    + apply R.
    + rewrite (r_cnt _ _ _ _ R) in *. exists t'. split; [exact E|]. split; [lia|]. split; [exact C'|].
      eapply rep_numbers; eauto.
Qed.

(** Afterwards insertion goes on numbering where it stopped. *)
Theorem C112_resize_insert e ks t expected t' l : built e ks t -> resize keq sent hash junk t expected = Ok t' ->
  ~ In sent l -> length (fst (insertions keq ks l)) <= tsize t' ->
  exists t'', insert_all keq sent hash (tsize t') t' l = Ok (t'', snd (insertions keq ks l)) /\
    numbers (fst (insertions keq ks l)) t''.
Proof.
  intros B H Hn Hlen. destruct (built_rep _ _ _ B) as (R & S & He).
  assert (R' : rep sent hash t' ks).
  { unfold resize in H. destruct (Nat.leb_spec (table_size expected) (tsize t)) as [L|L]; [inversion H; subst; auto|].
    assert (Hx : 0 < expected). { destruct expected; [simpl in L; unfold table_size in L; simpl in L; lia|lia]. }
    assert (Hl : length ks <= tsize t).
    { pose proof (r_list _ _ _ _ R) as F. pose proof (r_act _ _ _ _ R). rewrite <- F. rewrite firstn_length. lia. }
    destruct (emptied_ok keq sent hash junk expected (cnt t) (act t) ks Hx) as (t2 & E & R' & S' & C' & A').
    - apply R.
    - apply R.
    - lia.
    - rewrite (r_act _ _ _ _ R). lia.
    - apply R.
    - rewrite (r_cnt _ _ _ _ R) in *. rewrite E in H. inversion H; subst t2.
      rewrite <- C' in R'. destruct t'; exact R'. }
  destruct (insert_all_ok keq sent hash l t' ks R') as (t'' & A & R'' & _).
  - apply Forall_forall. intros x Hx ->. auto.
  - exact Hlen.
  - exists t''. split; [exact A|]. apply (rep_numbers _ t'' (cnt t'')). destruct t''; exact R''.
Qed.

(** preserve for a number of entries that makes the table grow: the first entries are kept with their indices,
    and the counter is the number asked for.  Missing for the full claim: tables that do not grow, see below. *)
Theorem C112_preserve_partial e ks t expected : built e ks t -> expected <> length ks ->
  table_size e < table_size expected ->
  exists t', preserve keq sent hash junk t expected = Ok t' /\
    tsize t' = table_size expected /\ cnt t' = expected /\ numbers (firstn expected ks) t'.
Proof.
  intros B N L. destruct (built_rep _ _ _ B) as (R & S & He). unfold preserve.
  rewrite (r_cnt _ _ _ _ R). rewrite (proj2 (Nat.eqb_neq _ _)) by auto. rewrite S. rewrite (proj2 (Nat.ltb_lt _ _)) by auto.
  assert (Hx : 0 < expected). { destruct expected; [unfold table_size in L; simpl in L; lia|lia]. }
  assert (Hl : length ks <= tsize t).
  { pose proof (r_list _ _ _ _ R) as F. pose proof (r_act _ _ _ _ R). rewrite <- F. rewrite firstn_length. lia. }
  assert (Lk : length (firstn expected ks) = Nat.min (length ks) expected) by (rewrite firstn_length; lia).
  destruct (emptied_ok keq sent hash junk expected expected (act t) (firstn expected ks) Hx) as (t' & E & R' & S' & C' & A').
  - apply firstn_nodup, R.
  - intros X. apply (r_ns _ _ _ _ R). eapply firstn_in; eauto.
  - lia.
  - rewrite (r_act _ _ _ _ R). lia.
  - rewrite Lk. rewrite <- (r_list _ _ _ _ R) at 2. rewrite firstn_firstn. f_equal. lia.
  - rewrite Lk in E. cbn [emptied tsize]. rewrite E. exists t'. split; [reflexivity|]. split; [auto|]. split; [auto|].
    eapply rep_numbers; eauto.
Qed.
(** Asking for the present number of entries changes nothing. *)
Theorem C112_preserve_same e ks t : built e ks t -> preserve keq sent hash junk t (length ks) = Ok t.
Proof.
  intros B. destruct (built_rep _ _ _ B) as (R & _). unfold preserve. rewrite (r_cnt _ _ _ _ R), Nat.eqb_refl. reflexivity.
Qed.
End Props.
Print Assumptions C112_resize.
Print Assumptions C112_resize_insert.
Print Assumptions C112_preserve_partial.
Print Assumptions C112_preserve_same.

(** Finding: two keys with the same home slot, and fewer entries asked for.  Removing the first one cuts the probe
    sequence of the second, which is then not found and removed at index -1. *)
Definition t256 : @table Z :=
  {| keys := repeat 1000%Z 256; inds := repeat (-1)%Z 256; cnt := 0; act := repeat 0%Z 256; tsize := 256 |}.
Theorem C112_preserve_refuted : exists t,
  built Z.eq_dec 1000%Z (fun k => k) 16 [1; 257]%Z t /\
  preserve Z.eq_dec 1000%Z (fun k => k) 0%Z t 1 = Oob.
Proof.
  eexists. split.
  - exists t256, [1; 257]%Z, [0; 1]%Z. split; [lia|]. split; [repeat split|]. split; [simpl; intuition discriminate|].
    split; [reflexivity|]. split; [vm_compute; lia|]. vm_compute. reflexivity.
  - vm_compute. reflexivity.
Qed.
Print Assumptions C112_preserve_refuted.

(** The same two keys survive growing. *)
Example C112_ex : exists t t', built Z.eq_dec 1000%Z (fun k => k) 16 [1; 257]%Z t /\
  resize Z.eq_dec 1000%Z (fun k => k) 0%Z t 40 = Ok t' /\ tsize t' = 1024 /\
  query Z.eq_dec (fun k => k) 1024 t' 257%Z = Ok 1%Z /\ table_size 16 < table_size 40.
Proof.
  eexists. eexists. split.
  - exists t256, [1; 257]%Z, [0; 1]%Z. split; [lia|]. split; [repeat split|]. split; [simpl; intuition discriminate|].
    split; [reflexivity|]. split; [vm_compute; lia|]. vm_compute. reflexivity.
  - split; [vm_compute; reflexivity|]. split; [vm_compute; reflexivity|]. split; [vm_compute; reflexivity|]. vm_compute; lia.
Qed.
