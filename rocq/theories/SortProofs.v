From Coq Require Import Sorted.
From Verif Require Import Prelude SortModel SortSpec.

(** slices *)
Section Sl.
Context {A : Type}.
Definition slice (a : list A) (l r : nat) : list A := firstn (r - l) (skipn l a).
Lemma nth_firstn' (a : list A) n i : nth_error (firstn n a) i = if i <? n then nth_error a i else None.
Proof.
  revert n i. induction a as [|x a IH]; intros n i.
  - rewrite firstn_nil. destruct (i <? n); destruct i; reflexivity.
  - destruct n as [|n], i as [|i]; cbn [firstn nth_error]; try reflexivity. rewrite IH. reflexivity.
Qed.
Lemma nth_skip (a : list A) l i : nth_error (skipn l a) i = nth_error a (l + i).
Proof. revert a. induction l as [|l IH]; intro a; [reflexivity|]. destruct a; cbn [skipn]; [destruct i; reflexivity|]. apply IH. Qed.
Lemma nth_slice a l r i : nth_error (slice a l r) i = if i <? r - l then nth_error a (l + i) else None.
Proof. unfold slice. rewrite nth_firstn', nth_skip. reflexivity. Qed.
Lemma slice_length a l r : r <= length a -> length (slice a l r) = r - l.
Proof. intro H. unfold slice. rewrite firstn_length, skipn_length. lia. Qed.
Lemma slice_ext a b l r : (forall i, l <= i < r -> nth_error a i = nth_error b i) -> slice a l r = slice b l r.
Proof.
  intro H. apply nth_error_ext. intro i. rewrite !nth_slice. destruct (Nat.ltb_spec i (r - l)); [apply H; lia|reflexivity].
Qed.
Lemma slice_nil a l r : r <= l -> slice a l r = [].
Proof. intro H. unfold slice. replace (r - l) with 0 by lia. reflexivity. Qed.
Lemma slice_app a l m r : l <= m <= r -> slice a l r = slice a l m ++ slice a m r.
Proof.
  intro H. unfold slice. replace (r - l) with ((m - l) + (r - m)) by lia. 
  assert (G : forall (b : list A) n k, firstn (n + k) b = firstn n b ++ firstn k (skipn n b)).
  { induction b as [|x b IH]; intros n k; [rewrite skipn_nil, !firstn_nil; reflexivity|]. destruct n; cbn; [reflexivity|]. f_equal. apply IH. }
  rewrite G. f_equal. f_equal. rewrite skipn_skipn'. f_equal. lia.
Qed.
Lemma slice_cons a l r x : l < r -> nth_error a l = Some x -> slice a l r = x :: slice a (S l) r.
Proof.
  intros H E. rewrite (slice_app a l (S l) r) by lia. cbn [app].
  assert (slice a l (S l) = [x]) as ->; [|reflexivity]. apply nth_error_ext. intro i. rewrite nth_slice.
  destruct (Nat.ltb_spec i (S l - l)).
  - replace i with 0 by lia. rewrite Nat.add_0_r. exact E.
  - destruct i; [lia|]. destruct i; reflexivity.
Qed.
Lemma slice_all a : slice a 0 (length a) = a.
Proof. unfold slice. rewrite Nat.sub_0_r. apply firstn_all. Qed.
Lemma slice_snoc a l r x : l <= r -> nth_error a r = Some x -> slice a l (S r) = slice a l r ++ [x].
Proof. intros H E. rewrite (slice_app a l r (S r)) by lia. f_equal. rewrite (slice_cons a r (S r) x) by (lia || assumption). rewrite slice_nil by lia. reflexivity. Qed.
(** only [l, r) changed *)
Definition frame (l r : nat) (a a' : list A) : Prop := length a' = length a /\ forall i, i < l \/ r <= i -> nth_error a' i = nth_error a i.
Lemma frame_refl l r a : frame l r a a. Proof. split; auto. Qed.
Lemma frame_trans l r a b c : frame l r a b -> frame l r b c -> frame l r a c.
Proof. intros [L1 F1] [L2 F2]. split; [lia|]. intros i Hi. rewrite F2, F1 by assumption. reflexivity. Qed.
Lemma frame_weak l r l' r' a b : l' <= l -> r <= r' -> frame l r a b -> frame l' r' a b.
Proof. intros H1 H2 [L F]. split; [exact L|]. intros i Hi. apply F. lia. Qed.
Lemma frame_slice l r a b p q : frame l r a b -> q <= l \/ r <= p -> slice b p q = slice a p q.
Proof. intros [L F] H. apply slice_ext. intros i Hi. apply F. lia. Qed.
Lemma upd_frame a i x a' : upd a i x = Some a' -> frame i (S i) a a'.
Proof. intro E. split; [eapply upd_length; eassumption|]. intros j Hj. eapply upd_nth_neq; [eassumption|lia]. Qed.
Lemma slice_frame_all l r a a' b : frame l r a a' -> slice a' l r = b -> l <= r <= length a -> a' = firstn l a ++ b ++ skipn r a.
Proof.
  intros F E H. rewrite <- (slice_all a'). destruct F as [L F]. rewrite L.
  rewrite (slice_app a' 0 l (length a)) by lia. rewrite (slice_app a' l r (length a)) by lia. rewrite E. f_equal; [|f_equal].
  - rewrite (slice_ext a' a 0 l) by (intros; apply F; lia). unfold slice. rewrite Nat.sub_0_r. reflexivity.
  - rewrite (slice_ext a' a r (length a)) by (intros; apply F; lia). unfold slice. rewrite <- skipn_length. apply firstn_all.
Qed.
End Sl.

(** stable sorts *)
Section SS.
Context {A : Type}.
Variable comp : A -> A -> bool.
Hypothesis SWO : strict_weak_order comp.
Notation le := (fun x y => comp y x = false).
Notation SS := (stable_sort_of comp).

Lemma c_asym x y : comp x y = true -> comp y x = false.
Proof. intro H. destruct (comp y x) eqn:E; [|reflexivity]. destruct SWO as (I & T & _). rewrite <- (I x). symmetry. eapply T; eassumption. Qed.
Lemma le_trans x y z : comp y x = false -> comp z y = false -> comp z x = false.
Proof. intros H1 H2. destruct (comp z x) eqn:E; [|reflexivity]. destruct SWO as (_ & _ & N). destruct (N z x y E); congruence. Qed.
Lemma equiv_spec x y : equiv comp x y = true <-> comp x y = false /\ comp y x = false.
Proof. unfold equiv. rewrite andb_true_iff, !negb_true_iff. tauto. Qed.
Lemma equiv_lt x y z : equiv comp x y = true -> comp y z = true -> equiv comp x z = false.
Proof.
  intros E H. destruct (equiv comp x z) eqn:Q; [|reflexivity]. apply equiv_spec in E, Q. destruct E as [E1 E2], Q as [Q1 Q2].
  destruct SWO as (_ & _ & N). destruct (N y z x H); congruence.
Qed.
Lemma equiv_gt x y z : equiv comp x y = true -> comp z y = true -> equiv comp x z = false.
Proof.
  intros E H. destruct (equiv comp x z) eqn:Q; [|reflexivity]. apply equiv_spec in E, Q. destruct E as [E1 E2], Q as [Q1 Q2].
  destruct SWO as (_ & _ & N). destruct (N z y x H); congruence.
Qed.

Lemma SS_nil : SS [] [].
Proof. split; [constructor|]. split; [constructor|reflexivity]. Qed.
Lemma SS_one x : SS [x] [x].
Proof. split; [constructor; constructor|]. split; [repeat constructor|reflexivity]. Qed.
Lemma SS_length i o : SS i o -> length o = length i.
Proof. intros (P & _). symmetry. apply Permutation_length. exact P. Qed.

Lemma ss_app_iff {B} (R : B -> B -> Prop) l r : StronglySorted R (l ++ r) <-> StronglySorted R l /\ StronglySorted R r /\ forall x y, In x l -> In y r -> R x y.
Proof.
  induction l as [|a l IH]; cbn.
  - split; [intro H; repeat split; [constructor|exact H|intros x y []]|tauto].
  - split.
    + intro H. inversion H as [|? ? H1 H2]; subst. apply IH in H1 as (I1 & I2 & I3). rewrite Forall_forall in H2. repeat split; auto.
      * constructor; [exact I1|]. apply Forall_forall. intros y Hy. apply H2. apply in_app_iff. auto.
      * intros x y [<-|Hx] Hy; [apply H2; apply in_app_iff; auto|apply I3; assumption].
    + intros (H1 & H2 & H3). inversion H1 as [|? ? H4 H5]; subst. constructor.
      * apply IH. repeat split; auto.
      * apply Forall_forall. intros y Hy. apply in_app_iff in Hy as [Hy|Hy]; [rewrite Forall_forall in H5; auto|apply H3; auto].
Qed.

(** insertion of x to the left past the elements after it *)
Lemma filter_none {B} (f : B -> bool) l : (forall y, In y l -> f y = false) -> filter f l = [].
Proof. induction l as [|a l IH]; intro H; cbn; [reflexivity|]. rewrite (H a) by (left; reflexivity). apply IH. intros; apply H; right; assumption. Qed.
Lemma SS_insert i l1 l2 x : SS i (l1 ++ l2) -> (forall y, In y l2 -> comp x y = true) -> (forall y, In y l1 -> comp x y = false) ->
  SS (i ++ [x]) (l1 ++ x :: l2).
Proof.
  intros (P & S & F) H2 H1. split; [|split].
  - rewrite P. rewrite <- app_assoc. apply Permutation_app_head. apply (Permutation_app_comm l2 [x]).
  - apply ss_app_iff in S as (S1 & S2 & S3). apply ss_app_iff. split; [exact S1|]. split.
    + constructor; [exact S2|]. apply Forall_forall. intros y Hy. apply c_asym. apply H2. exact Hy.
    + intros a b Ha [<-|Hb]; [apply H1; exact Ha|apply S3; assumption].
  - intro z. specialize (F z). rewrite !filter_app in *. cbn [filter]. destruct (equiv comp z x) eqn:E.
    + assert (N : filter (equiv comp z) l2 = []) by (apply filter_none; intros y Hy; eapply equiv_lt; [exact E|apply H2; exact Hy]).
      rewrite N in *. rewrite app_nil_r in F. rewrite F. reflexivity.
    + rewrite app_nil_r. exact F.
Qed.

(** two-way merge, left first on ties *)
Fixpoint merge (l1 : list A) : list A -> list A :=
  fix go l2 := match l1, l2 with
  | [], _ => l2
  | _, [] => l1
  | a :: t1, b :: t2 => if negb (comp b a) then a :: merge t1 l2 else b :: go t2
  end.
Lemma merge_cons a t1 b t2 : merge (a :: t1) (b :: t2) = if negb (comp b a) then a :: merge t1 (b :: t2) else b :: merge (a :: t1) t2.
Proof. reflexivity. Qed.
Lemma merge_nil_r l : merge l [] = l. Proof. destruct l; reflexivity. Qed.
Lemma merge_nil_l l : merge [] l = l. Proof. destruct l; reflexivity. Qed.
Lemma merge_perm l1 : forall l2, Permutation (l1 ++ l2) (merge l1 l2).
Proof.
  induction l1 as [|a l1 IH]; intro l2; [rewrite merge_nil_l; reflexivity|].
  induction l2 as [|b l2 IH2]; [rewrite merge_nil_r, app_nil_r; reflexivity|]. rewrite merge_cons. destruct (negb (comp b a)).
  - cbn. constructor. apply IH.
  - rewrite <- IH2. symmetry. apply (Permutation_middle (a :: l1) l2 b).
Qed.
Lemma merge_sorted l1 : forall l2, ascending comp l1 -> ascending comp l2 -> ascending comp (merge l1 l2).
Proof.
  induction l1 as [|a l1 IH]; intros l2 S1 S2; [rewrite merge_nil_l; exact S2|].
  induction l2 as [|b l2 IH2]; [rewrite merge_nil_r; exact S1|]. rewrite merge_cons.
  inversion S1 as [|? ? S1a S1b]; inversion S2 as [|? ? S2a S2b]; subst. rewrite Forall_forall in S1b, S2b.
  destruct (comp b a) eqn:E; cbn [negb].
  - constructor; [apply IH2; assumption|]. apply Forall_forall. intros y Hy.
    apply (Permutation_in _ (Permutation_sym (merge_perm (a :: l1) l2))) in Hy. apply in_app_iff in Hy as [[<-|Hy]|Hy].
    + apply c_asym; exact E.
    + eapply le_trans; [apply c_asym; exact E|apply S1b; exact Hy].
    + apply S2b; exact Hy.
  - constructor; [apply IH; assumption|]. apply Forall_forall. intros y Hy.
    apply (Permutation_in _ (Permutation_sym (merge_perm l1 (b :: l2)))) in Hy. apply in_app_iff in Hy as [Hy|[<-|Hy]].
    + apply S1b; exact Hy.
    + exact E.
    + eapply le_trans; [exact E|apply S2b; exact Hy].
Qed.
Lemma merge_filter z l1 : forall l2, ascending comp l1 -> ascending comp l2 -> filter (equiv comp z) (merge l1 l2) = filter (equiv comp z) l1 ++ filter (equiv comp z) l2.
Proof.
  induction l1 as [|a l1 IH]; intros l2 S1 S2; [rewrite merge_nil_l; reflexivity|].
  induction l2 as [|b l2 IH2]; [rewrite merge_nil_r; cbn [filter]; rewrite app_nil_r; reflexivity|]. rewrite merge_cons.
  inversion S1 as [|? ? S1a S1b]; inversion S2 as [|? ? S2a S2b]; subst. rewrite Forall_forall in S1b, S2b.
  destruct (comp b a) eqn:E; cbn [negb].
  - specialize (IH2 S2a). cbn [filter] in IH2 |- *. rewrite IH2. destruct (equiv comp z b) eqn:Q; [|reflexivity].
    assert (N : filter (equiv comp z) (a :: l1) = []).
    { apply filter_none. intros y [<-|Hy]; [eapply equiv_lt; eassumption|].
      eapply equiv_lt; [exact Q|]. destruct SWO as (_ & _ & W). destruct (W b a y E) as [K|K]; [exact K|]. rewrite (S1b y Hy) in K. discriminate. }
    cbn [filter] in N. rewrite N. reflexivity.
  - specialize (IH (b :: l2) S1a S2). cbn [filter]. destruct (equiv comp z a); [cbn [app]; f_equal|]; exact IH.
Qed.
Lemma SS_merge i1 o1 i2 o2 : SS i1 o1 -> SS i2 o2 -> SS (i1 ++ i2) (merge o1 o2).
Proof.
  intros (P1 & S1 & F1) (P2 & S2 & F2). split; [|split].
  - rewrite P1, P2. apply merge_perm.
  - apply merge_sorted; assumption.
  - intro z. rewrite merge_filter, filter_app, F1, F2 by assumption. reflexivity.
Qed.
Lemma SS_unique i : forall o o', SS i o -> SS i o' -> o = o'.
Proof.
  intros o o' H H'. assert (P : Permutation o o') by (rewrite <- (proj1 H), <- (proj1 H'); reflexivity).
  assert (F : forall x, filter (equiv comp x) o = filter (equiv comp x) o') by (intro x; rewrite (proj2 (proj2 H)), (proj2 (proj2 H')); reflexivity).
  destruct H as (_ & S & _), H' as (_ & S' & _). clear i. revert o' P F S'. induction S as [|a o S IH Sa]; intros o' P F S'.
  - apply Permutation_nil in P. symmetry; exact P.
  - destruct o' as [|b o']; [apply Permutation_sym, Permutation_nil in P; discriminate|]. inversion S' as [|? ? S'1 S'2]; subst.
    rewrite Forall_forall in Sa, S'2.
    assert (Eab : equiv comp a b = true).
    { apply equiv_spec. split.
      - assert (I : In a (b :: o')) by (eapply Permutation_in; [exact P|left; reflexivity]). destruct I as [->|I]; [apply SWO|apply S'2; exact I].
      - assert (I : In b (a :: o)) by (eapply Permutation_in; [symmetry; exact P|left; reflexivity]). destruct I as [->|I]; [apply SWO|apply Sa; exact I]. }
    assert (a = b) as <-.
    { pose proof (F a) as Fa. cbn [filter] in Fa. rewrite Eab in Fa. assert (equiv comp a a = true) by (apply equiv_spec; split; apply SWO). rewrite H in Fa. congruence. }
    f_equal. apply IH; [eapply Permutation_cons_inv; exact P| |exact S'1].
    intro x. specialize (F x). cbn [filter] in F. destruct (equiv comp x a); [injection F as F|]; exact F.
Qed.
End SS.
