(* Invariants of the queue's runs. *)
From Verif Require Import Prelude TqModel TqSpec.

Section PROOFS.
Context {A : Type}.
Implicit Types (s : state A) (p : pc A) (es : list (event A)).

Definition holds p : bool :=
  match p with Inside _ | Popping _ | Notify | Leave _ | Crashed => true | _ => false end.
(* threads a value may still be handed to *)
Definition works p : nat :=
  match p with Woken | Inside WaitPop | Popping WaitPop | Notify => 1 | _ => 0 end.
Definition steps_left p : nat :=
  match p with
  | Idle | Asleep | Crashed => 0 | Leave _ => 1 | Popping _ => 2
  | Inside (Push _) => 7 | Inside _ => 3 | Notify => 6 | Woken => 4 | Enter _ => 8
  end.
Fixpoint tally (f : pc A -> nat) (l : list (pc A)) : nat :=
  match l with [] => 0 | p :: l => f p + tally f l end.

Lemma tally_upd f l i x l' y : upd l i x = Some l' -> nth_error l i = Some y ->
  tally f l' + f y = tally f l + f x.
Proof.
  revert i l'. induction l as [|a l IH]; intros [|i] l'; simpl; try discriminate.
  - intros H H'. injection H as <-. injection H' as ->. simpl. lia.
  - destruct (upd l i x) as [m|] eqn:E; simpl; try discriminate.
    intros H H'. injection H as <-. specialize (IH _ _ E H'). simpl. lia.
Qed.
Lemma tally_zero f l : (forall i p, nth_error l i = Some p -> f p = 0) -> tally f l = 0.
Proof.
  induction l as [|a l IH]; intros H; simpl; auto. rewrite (H 0 a eq_refl). apply IH.
  intros i p Hi. exact (H (S i) p Hi).
Qed.
Lemma tally_le f c l : (forall p, f p <= c) -> tally f l <= c * length l.
Proof. intros H. induction l as [|a l IH]; simpl; [lia|]. specialize (H a). lia. Qed.

Definition sleeping s := exists t, nth_error (pcs s) t = Some Asleep.
Record inv s : Prop := {
  inv_owner : forall t, owner s = Some t <-> exists p, nth_error (pcs s) t = Some p /\ holds p = true;
  inv_pop : forall t o, nth_error (pcs s) t = Some (Popping o) -> queue s <> [] /\ (o = WaitPop \/ o = TryPop);
  inv_ok : forall t, nth_error (pcs s) t <> Some Crashed;
  inv_wake : sleeping s -> length (queue s) <= tally works (pcs s) }.

(* the part of a thread's events belonging to its unfinished operation *)
Inductive pending (t : nat) : pc A -> list (event A) -> Prop :=
| pend_idle : pending t Idle []
| pend_enter o : pending t (Enter o) [Call t o]
| pend_inside o : pending t (Inside o) [Call t o]
| pend_popping o : pending t (Popping o) [Call t o]
| pend_notify v : pending t Notify [Call t (Push v); Effect t (Push v) Done]
| pend_leave o r : pending t (Leave r) [Call t o; Effect t o r]
| pend_asleep : pending t Asleep [Call t WaitPop]
| pend_woken : pending t Woken [Call t WaitPop].
Inductive completed : list (event A) -> Prop :=
| comp_nil : completed []
| comp_more t o r es : completed es -> completed (es ++ [Call t o; Effect t o r; Return t r]).
Definition traced es s :=
  forall t p, nth_error (pcs s) t = Some p -> exists e1 e2, mine t es = e1 ++ e2 /\ completed e1 /\ pending t p e2.

Lemma orderly_app e1 e2 : completed e1 -> orderly e2 -> orderly (e1 ++ e2).
Proof.
  intros H. revert e2. induction H as [|t o r es H IH]; intros e2 H2; simpl; auto.
  rewrite <- app_assoc. apply IH. simpl. constructor. exact H2.
Qed.
Lemma pending_orderly t p e : pending t p e -> orderly e.
Proof. destruct 1; constructor. Qed.

Lemma mine_app t es es' : mine t (es ++ es') = mine t es ++ mine t es'.
Proof. apply filter_app. Qed.

Lemma put_inv s q o t p e s' e' : put s q o t p e = Some (s', e') ->
  exists l, upd (pcs s) t p = Some l /\ s' = State q o l /\ e' = e.
Proof.
  unfold put. destruct (upd (pcs s) t p) as [l|] eqn:E; simpl; try discriminate.
  intros H. injection H as <- <-. eauto.
Qed.

Lemma single_inv s t p0 p q o l : inv s -> nth_error (pcs s) t = Some p0 -> upd (pcs s) t p = Some l ->
  o = (if holds p then Some t else if holds p0 then None else owner s) ->
  (holds p = true -> holds p0 = true \/ owner s = None) ->
  (forall o', p = Popping o' -> q <> [] /\ (o' = WaitPop \/ o' = TryPop)) ->
  q = queue s \/ holds p0 = true -> p <> Crashed ->
  (sleeping (State q o l) -> length q <= tally works l) -> inv (State q o l).
Proof.
  intros I H0 U Ho Hacq Hpop Hq Hc Hw.
  assert (N : forall j, j <> t -> nth_error l j = nth_error (pcs s) j)
    by (intros j Hj; apply (upd_nth_neq _ _ _ _ _ U); congruence).
  pose proof (upd_nth_eq _ _ _ _ U) as Nt.
  assert (Other : holds p0 = true \/ owner s = None -> forall j p1, j <> t -> nth_error (pcs s) j = Some p1 -> holds p1 = false).
  { intros HH j p1 Hj Hp1. destruct (holds p1) eqn:E; auto. exfalso.
    assert (owner s = Some j) by (apply (inv_owner _ I); eauto).
    destruct HH as [HH|HH]; [|congruence].
    assert (owner s = Some t) by (apply (inv_owner _ I); eauto). congruence. }
  split; simpl; auto.
  - intros j. destruct (Nat.eq_dec j t) as [->|Hj].
    + rewrite Nt. destruct (holds p) eqn:E.
      * subst o. split; eauto.
      * split; [|intros (p1 & [= <-] & ?); congruence]. intros Ho'. exfalso. subst o.
        destruct (holds p0) eqn:E0; [congruence|].
        apply (inv_owner _ I) in Ho'. destruct Ho' as (p1 & H1 & H2). congruence.
    + rewrite N by auto. destruct (holds p) eqn:E.
      * subst o. split; [congruence|]. intros (p1 & H1 & H2). rewrite (Other (Hacq eq_refl) j p1 Hj H1) in H2. congruence.
      * destruct (holds p0) eqn:E0; subst o.
        -- split; [congruence|]. intros (p1 & H1 & H2). rewrite (Other (or_introl eq_refl) j p1 Hj H1) in H2. congruence.
        -- apply (inv_owner _ I).
  - intros j o'. destruct (Nat.eq_dec j t) as [->|Hj].
    + rewrite Nt. intros [= ->]. auto.
    + rewrite N by auto. intros H1. destruct Hq as [->|Hq]; [exact (inv_pop _ I _ _ H1)|].
      pose proof (Other (or_introl Hq) j _ Hj H1). discriminate.
  - intros j. destruct (Nat.eq_dec j t) as [->|Hj]; [rewrite Nt; congruence|].
    rewrite N by auto. apply (inv_ok _ I).
Qed.

Lemma sleeping_upd s t p l q o : upd (pcs s) t p = Some l -> p <> Asleep -> sleeping (State q o l) -> sleeping s.
Proof.
  intros U Hp [j Hj]. simpl in Hj. exists j. destruct (Nat.eq_dec t j) as [<-|N].
  - rewrite (upd_nth_eq _ _ _ _ U) in Hj. congruence.
  - rewrite (upd_nth_neq _ _ _ _ _ U N) in Hj. exact Hj.
Qed.

Lemma held s t p : inv s -> nth_error (pcs s) t = Some p -> holds p = true -> owner s = Some t.
Proof. intros I H H'. apply (inv_owner _ I). eauto. Qed.

Lemma step_inv s t a s' e : inv s -> step s t a = Some (s', e) -> inv s'.
Proof.
  intros I. unfold step. destruct (nth_error (pcs s) t) as [p|] eqn:E; [|discriminate].
  assert (G : forall q o p1 ev, put s q o t p1 ev = Some (s', e) ->
    o = (if holds p1 then Some t else if holds p then None else owner s) ->
    (holds p1 = true -> holds p = true \/ owner s = None) ->
    (forall o', p1 = Popping o' -> q <> [] /\ (o' = WaitPop \/ o' = TryPop)) ->
    q = queue s \/ holds p = true -> p1 <> Crashed ->
    (p1 <> Asleep -> length q + works p <= length (queue s) + works p1) ->
    (p1 = Asleep -> q = []) -> inv s').
  { intros q o p1 ev H H1 H2 H3 H4 H5 H6 H7. apply put_inv in H. destruct H as (l & U & -> & ->).
    eapply single_inv; eauto. intros Sl.
    destruct (asleep p1) eqn:Ea.
    - rewrite H7; [simpl; lia|]. destruct p1; try discriminate; reflexivity.
    - assert (p1 <> Asleep) by (intros ->; discriminate). specialize (H6 H).
      pose proof (inv_wake _ I (sleeping_upd _ _ _ _ _ _ U H Sl)). pose proof (tally_upd works _ _ _ _ _ U E). lia. }
  destruct p as [|o|o|o| |r| | |]; destruct a as [o1| |k|]; try discriminate.
  - intros H. eapply G; eauto; simpl; try discriminate; auto; lia.
  - destruct (owner s) eqn:Eo; [discriminate|]. intros H. eapply G; eauto; simpl; try discriminate; auto.
    intros _. destruct o; simpl; lia.
  - destruct o; try discriminate. 
  - pose proof (held _ _ _ I E eq_refl) as Ow. destruct o as [v| | |].
    + intros H. eapply G; eauto; simpl; try discriminate; auto. intros _. rewrite app_length. simpl. lia.
    + destruct (queue s) as [|x q] eqn:Q; intros H; eapply G; eauto; simpl; try discriminate; auto; try congruence.
      intros o' [= <-]. split; [discriminate|auto].
    + destruct (queue s) as [|x q] eqn:Q; intros H; eapply G; eauto; simpl; try discriminate; auto; try lia.
      * intros o' [= <-]. split; [discriminate|auto].
    + intros H. eapply G; eauto; simpl; try discriminate; auto.
  - destruct o; discriminate.
  - destruct o; discriminate.
  - pose proof (held _ _ _ I E eq_refl) as Ow. destruct (inv_pop _ I _ _ E) as [Hq Ho].
    destruct (queue s) as [|x q] eqn:Q; [congruence|]. intros H. eapply G; eauto; simpl; try discriminate; auto.
    intros _. destruct Ho as [->| ->]; lia.
  - pose proof (held _ _ _ I E eq_refl) as Ow.
    destruct (existsb asleep (pcs s)) eqn:Ex; [discriminate|]. intros H. apply put_inv in H. destruct H as (l & U & -> & ->).
    eapply single_inv; eauto; simpl; try discriminate; auto.
    intros Sl. destruct (sleeping_upd _ _ _ _ _ _ U ltac:(discriminate) Sl) as [j Hj].
    assert (existsb asleep (pcs s) = true) by (apply existsb_exists; exists Asleep; split; [eapply nth_error_In; eauto|reflexivity]).
    congruence.
  - pose proof (held _ _ _ I E eq_refl) as Ow.
    destruct (nth_error (pcs s) k) as [pk|] eqn:Ek; [|discriminate]. destruct pk; try discriminate.
    destruct (upd (pcs s) k Woken) as [l1|] eqn:U1; [|discriminate].
    assert (Hkt : k <> t) by congruence.
    assert (I1 : inv (State (queue s) (owner s) l1) \/ True) by auto. clear I1.
    intros H. apply put_inv in H. destruct H as (l & U & -> & ->). simpl in U.
    assert (Et : nth_error l1 t = Some Notify) by (rewrite (upd_nth_neq _ _ _ _ _ U1 Hkt); exact E).
    pose proof (tally_upd works _ _ _ _ _ U1 Ek) as T1. pose proof (tally_upd works _ _ _ _ _ U Et) as T2. simpl in T1, T2.
    assert (W : sleeping s) by (exists k; exact Ek). pose proof (inv_wake _ I W) as Wk.
    assert (I1 : inv (State (queue s) (owner s) l1)).
    { eapply single_inv; eauto; simpl; try discriminate; auto. intros _. lia. }
    eapply (single_inv _ t Notify (Leave Done) _ _ _ I1 Et U); simpl; try discriminate; auto.
    intros _. lia.
  - pose proof (held _ _ _ I E eq_refl) as Ow. intros H. eapply G; eauto; simpl; try discriminate; auto; lia.
  - intros H. eapply G; eauto; simpl; try discriminate; auto; lia.
  - destruct (owner s) eqn:Eo; [discriminate|]. intros H. eapply G; eauto; simpl; try discriminate; auto.
Qed.

Lemma nth_repeat_idle n t p : nth_error (repeat (@Idle A) n) t = Some p -> p = Idle.
Proof. intros H. apply nth_error_In in H. apply repeat_spec in H. exact H. Qed.

Lemma start_inv n : inv (start (A := A) n).
Proof.
  split; simpl.
  - intros t. split; [discriminate|]. intros (p & H & H'). apply nth_repeat_idle in H. subst. discriminate.
  - intros t o H. apply nth_repeat_idle in H. discriminate.
  - intros t H. apply nth_repeat_idle in H. discriminate.
  - intros _. lia.
Qed.

Lemma run_inv s es s' : inv s -> run s es s' -> inv s'.
Proof. intros I R. revert I. induction R as [|s es s1 t a e s2 R IH St]; intros I; auto. exact (step_inv _ _ _ _ _ (IH I) St). Qed.

(* traces *)
Lemma traced_put s es t p p1 q o l e : traced es s -> nth_error (pcs s) t = Some p -> upd (pcs s) t p1 = Some l ->
  (forall x, In x e -> thread_of x = t) ->
  (forall e2, pending t p e2 -> exists f1 f2, e2 ++ e = f1 ++ f2 /\ completed f1 /\ pending t p1 f2) ->
  traced (es ++ e) (State q o l).
Proof.
  intros T E U M P j pj Hj. simpl in Hj. rewrite mine_app. destruct (Nat.eq_dec j t) as [->|N].
  - rewrite (upd_nth_eq _ _ _ _ U) in Hj. injection Hj as <-.
    destruct (T t p E) as (e1 & e2 & H1 & H2 & H3).
    assert (Me : mine t e = e).
    { unfold mine. clear - M. induction e as [|x e IH]; simpl; auto.
      rewrite (M x) by (left; auto). rewrite Nat.eqb_refl. f_equal. apply IH. intros y Hy. apply M. right. auto. }
    destruct (P e2 H3) as (f1 & f2 & F1 & F2 & F3).
    exists (e1 ++ f1), f2. rewrite Me, H1, <- !app_assoc, F1. split; auto. split; auto.
    clear - H2 F2. revert H2. induction F2 as [|t o r f F IH]; intros H2; [rewrite app_nil_r; auto|].
    rewrite app_assoc. constructor. auto.
  - rewrite (upd_nth_neq _ _ _ _ _ U) in Hj by congruence.
    assert (Me : mine j e = []).
    { unfold mine. clear - M N. induction e as [|x e IH]; simpl; auto.
      rewrite (M x) by (left; auto). destruct (Nat.eqb_spec t j); [congruence|]. apply IH. intros y Hy. apply M. right. auto. }
    rewrite Me, app_nil_r. exact (T j pj Hj).
Qed.

Lemma step_traced s t a s' e es : inv s -> traced es s -> step s t a = Some (s', e) -> traced (es ++ e) s'.
Proof.
  intros I T. unfold step. destruct (nth_error (pcs s) t) as [p|] eqn:E; [|discriminate].
  assert (G : forall q o p1 ev, put s q o t p1 ev = Some (s', e) ->
    (forall x, In x ev -> thread_of x = t) ->
    (forall e2, pending t p e2 -> exists f1 f2, e2 ++ ev = f1 ++ f2 /\ completed f1 /\ pending t p1 f2) ->
    traced (es ++ e) s').
  { intros q o p1 ev H. apply put_inv in H. destruct H as (l & U & -> & ->). intros. eapply traced_put; eauto. }
  assert (Z : forall p1, (forall e2, pending t p e2 -> pending t p1 e2) ->
     forall e2, pending t p e2 -> exists f1 f2, e2 ++ [] = f1 ++ f2 /\ completed f1 /\ pending t p1 f2).
  { intros p1 H e2 H2. exists [], e2. rewrite app_nil_r. simpl. repeat split; auto. constructor. }
  assert (Z1 : forall p1 x, (forall e2, pending t p e2 -> pending t p1 (e2 ++ [x])) ->
     forall e2, pending t p e2 -> exists f1 f2, e2 ++ [x] = f1 ++ f2 /\ completed f1 /\ pending t p1 f2).
  { intros p1 x H e2 H2. exists [], (e2 ++ [x]). simpl. repeat split; auto. constructor. }
  assert (S1 : forall x : event A, thread_of x = t -> forall y, In y [x] -> thread_of y = t)
    by (intros x Hx y [<-|[]]; auto).
  assert (S0 : forall y : event A, In y [] -> thread_of y = t) by (intros y []).
  destruct p as [|o|o|o| |r| | |]; destruct a as [o1| |k|]; try discriminate.
  - intros H. eapply G; [exact H|first [exact S0 | apply S1; reflexivity]|]. refine (Z1 _ _ _). intros e2 P. inversion P; subst. simpl. constructor.
  - destruct (owner s) eqn:Eo; [discriminate|]. intros H. eapply G; [exact H|first [exact S0 | apply S1; reflexivity]|].
    refine (Z _ _). intros e2 P. inversion P; subst. constructor.
  - destruct o; discriminate.
  - destruct o as [v| | |].
    + intros H. eapply G; [exact H|first [exact S0 | apply S1; reflexivity]|]. refine (Z1 _ _ _). intros e2 P. inversion P; subst. simpl. constructor.
    + destruct (queue s) as [|x q] eqn:Q; intros H; (eapply G; [exact H|first [exact S0 | apply S1; reflexivity]|]); refine (Z _ _); intros e2 P; inversion P; subst; constructor.
    + destruct (queue s) as [|x q] eqn:Q; intros H; (eapply G; [exact H|first [exact S0 | apply S1; reflexivity]|]).
      * refine (Z1 _ _ _). intros e2 P; inversion P; subst; constructor.
      * refine (Z _ _). intros e2 P; inversion P; subst; constructor.
    + intros H. eapply G; [exact H|first [exact S0 | apply S1; reflexivity]|]. refine (Z1 _ _ _). intros e2 P. inversion P; subst. simpl. constructor.
  - destruct o; discriminate.
  - destruct o; discriminate.
  - destruct (queue s) as [|x q] eqn:Q; intros H.
    + exfalso. exact (proj1 (inv_pop _ I _ _ E) Q).
    + eapply G; [exact H|first [exact S0 | apply S1; reflexivity]|]. refine (Z1 _ _ _). intros e2 P. inversion P; subst. simpl. constructor.
  - destruct (existsb asleep (pcs s)) eqn:Ex; [discriminate|]. intros H. eapply G; [exact H|first [exact S0 | apply S1; reflexivity]|].
    refine (Z _ _). intros e2 P. inversion P; subst. constructor.
  - destruct (nth_error (pcs s) k) as [pk|] eqn:Ek; [|discriminate]. destruct pk; try discriminate.
    destruct (upd (pcs s) k Woken) as [l1|] eqn:U1; [|discriminate].
    assert (Hkt : k <> t) by congruence.
    intros H. apply put_inv in H. destruct H as (l & U & -> & ->). simpl in U.
    assert (Et : nth_error l1 t = Some Notify) by (rewrite (upd_nth_neq _ _ _ _ _ U1 Hkt); exact E).
    assert (T1 : traced (es ++ []) (State (queue s) (owner s) l1)).
    { eapply (traced_put _ _ k Asleep Woken _ _ _ [] T Ek U1); [intros y []|].
      intros e2 P. inversion P; subst. exists [], [Call k WaitPop]. repeat split; auto; constructor. }
    rewrite <- (app_nil_r es) at 1.
    eapply (traced_put _ _ t Notify (Leave Done) _ _ _ [] T1 Et U); [auto|].
    intros e2 P. inversion P; subst. eexists [], _. rewrite app_nil_r. repeat split; auto; constructor.
  - intros H. eapply G; [exact H|first [exact S0 | apply S1; reflexivity]|]. intros e2 P. inversion P; subst.
    exists ([] ++ [Call t o; Effect t o r; Return t r]), []. repeat split; auto; [|constructor].
    constructor. constructor.
  - intros H. eapply G; [exact H|first [exact S0 | apply S1; reflexivity]|]. refine (Z _ _). intros e2 P. inversion P; subst. constructor.
  - destruct (owner s) eqn:Eo; [discriminate|]. intros H. eapply G; [exact H|first [exact S0 | apply S1; reflexivity]|].
    refine (Z _ _). intros e2 P. inversion P; subst. constructor.
Qed.

Lemma history_app (q q' q'' : list A) es e : history q es q' -> history q' e q'' -> history q (es ++ e) q''.
Proof. induction 1; intros H'; simpl; [exact H'|econstructor; eauto..]. Qed.

Lemma step_history s t a s' e : inv s -> step s t a = Some (s', e) -> history (queue s) e (queue s').
Proof.
  intros I. unfold step. destruct (nth_error (pcs s) t) as [p|] eqn:E; [|discriminate].
  assert (G : forall q o p1 ev, put s q o t p1 ev = Some (s', e) -> history (queue s) ev q -> history (queue s) e (queue s')).
  { intros q o p1 ev H. apply put_inv in H. destruct H as (l & U & -> & ->). auto. }
  assert (E1 : forall q o r, fifo (queue s) o r q -> history (queue s) [Effect t o r] q)
    by (intros; econstructor; eauto; constructor).
  destruct p as [|o|o|o| |r| | |]; destruct a as [o1| |k|]; try discriminate.
  - intros H; eapply G; eauto. repeat constructor.
  - destruct (owner s); [discriminate|]. intros H; eapply G; eauto. constructor.
  - destruct o; discriminate.
  - destruct o as [v| | |].
    + intros H; eapply G; eauto. apply E1. constructor.
    + destruct (queue s) as [|x q] eqn:Q; intros H; eapply G; eauto; constructor.
    + destruct (queue s) as [|x q] eqn:Q; intros H; (eapply G; [exact H|]); [apply E1|]; constructor.
    + intros H; eapply G; eauto. apply E1. constructor. destruct (queue s); split; congruence.
  - destruct o; discriminate.
  - destruct o; discriminate.
  - destruct (inv_pop _ I _ _ E) as [Hq Ho].
    destruct (queue s) as [|x q] eqn:Q; [congruence|]. intros H; (eapply G; [exact H|]). apply E1.
    destruct Ho as [->| ->]; constructor.
  - destruct (existsb asleep (pcs s)); [discriminate|]. intros H; eapply G; eauto. constructor.
  - destruct (nth_error (pcs s) k) as [pk|] eqn:Ek; [|discriminate]. destruct pk; try discriminate.
    destruct (upd (pcs s) k Woken) as [l1|] eqn:U1; [|discriminate].
    intros H. apply put_inv in H. destruct H as (l & U & -> & ->). constructor.
  - intros H; eapply G; eauto. repeat constructor.
  - intros H; eapply G; eauto. constructor.
  - destruct (owner s); [discriminate|]. intros H; eapply G; eauto. constructor.
Qed.

Lemma run_all n es s : run (start n) es s -> inv s /\ traced es s /\ history [] es (queue s).
Proof.
  intros R. remember (start n) as s0 eqn:E. revert E. induction R as [s|s es s1 t a e s2 R IH St]; intros ->.
  - split; [apply start_inv|]. split; [|constructor].
    intros t p H. simpl in H. apply nth_repeat_idle in H. subst p. exists [], []. repeat split; constructor.
  - destruct (IH eq_refl) as (I & T & H). split; [eapply step_inv; eauto|].
    split; [eapply step_traced; eauto|]. eapply history_app; eauto. eapply step_history; eauto.
Qed.

Lemma step_length s t a s' e : step s t a = Some (s', e) -> length (pcs s') = length (pcs s).
Proof.
  unfold step. destruct (nth_error (pcs s) t) as [p|] eqn:E; [|discriminate].
  assert (G : forall q o p1 ev, put s q o t p1 ev = Some (s', e) -> length (pcs s') = length (pcs s)).
  { intros q o p1 ev H. apply put_inv in H. destruct H as (l & U & -> & ->). exact (upd_length _ _ _ _ U). }
  destruct p as [|o|[v| | |]|o| |r| | |]; destruct a as [o1| |k|]; try discriminate; eauto;
    try (destruct (owner s); [discriminate|]; now eauto);
    try (destruct (queue s); now eauto).
  - destruct (existsb asleep (pcs s)); [discriminate|]. eauto.
  - destruct (nth_error (pcs s) k) as [pk|] eqn:Ek; [|discriminate]. destruct pk; try discriminate.
    destruct (upd (pcs s) k Woken) as [l1|] eqn:U1; [|discriminate].
    intros H. apply put_inv in H. destruct H as (l & U & -> & ->). simpl.
    rewrite (upd_length _ _ _ _ U). exact (upd_length _ _ _ _ U1).
Qed.

(* a step that is neither a call nor a spurious wake-up *)
Definition inner (a : act A) : bool := match a with Go | Wake _ => true | _ => false end.
Lemma step_left s t a s' e : inner a = true -> step s t a = Some (s', e) ->
  tally steps_left (pcs s') < tally steps_left (pcs s).
Proof.
  intros Ha. unfold step. destruct (nth_error (pcs s) t) as [p|] eqn:E; [|discriminate].
  assert (G : forall q o p1 ev, put s q o t p1 ev = Some (s', e) -> steps_left p1 < steps_left p ->
     tally steps_left (pcs s') < tally steps_left (pcs s)).
  { intros q o p1 ev H. apply put_inv in H. destruct H as (l & U & -> & ->). simpl.
    pose proof (tally_upd steps_left _ _ _ _ _ U E). lia. }
  destruct p as [|o|o|o| |r| | |]; destruct a as [o1| |k|]; try discriminate.
  - destruct (owner s); [discriminate|]. intros H; eapply G; eauto. destruct o; simpl; lia.
  - destruct o as [v| | |].
    + intros H; eapply G; eauto; simpl; lia.
    + destruct (queue s) as [|x q] eqn:Q; intros H; eapply G; eauto; simpl; lia.
    + destruct (queue s) as [|x q] eqn:Q; intros H; eapply G; eauto; simpl; lia.
    + intros H; eapply G; eauto; simpl; lia.
  - destruct o; discriminate.
  - destruct (queue s) as [|x q] eqn:Q; intros H; eapply G; eauto; simpl; lia.
  - destruct (existsb asleep (pcs s)); [discriminate|]. intros H; eapply G; eauto; simpl; lia.
  - destruct (nth_error (pcs s) k) as [pk|] eqn:Ek; [|discriminate]. destruct pk; try discriminate.
    destruct (upd (pcs s) k Woken) as [l1|] eqn:U1; [|discriminate].
    assert (Hkt : k <> t) by congruence.
    intros H. apply put_inv in H. destruct H as (l & U & -> & ->). simpl in *.
    assert (Et : nth_error l1 t = Some Notify) by (rewrite (upd_nth_neq _ _ _ _ _ U1 Hkt); exact E).
    pose proof (tally_upd steps_left _ _ _ _ _ U1 Ek) as T1. pose proof (tally_upd steps_left _ _ _ _ _ U Et) as T2.
    simpl in T1, T2. lia.
  - intros H; eapply G; eauto; simpl; lia.
  - destruct (owner s); [discriminate|]. intros H; eapply G; eauto; simpl; lia.
Qed.

Lemma put_some s q o t p0 p ev : nth_error (pcs s) t = Some p0 -> exists s', put s q o t p ev = Some (s', ev).
Proof.
  intros H. destruct (upd_some (pcs s) t p) as [l U]; [eapply nth_error_some_lt; eauto|].
  unfold put. rewrite U. simpl. eauto.
Qed.

Lemma progress s : inv s ->
  (exists t a s' e, inner a = true /\ step s t a = Some (s', e)) \/
  (forall t p, nth_error (pcs s) t = Some p -> p = Idle \/ p = Asleep) /\ (sleeping s -> queue s = []).
Proof.
  intros I. destruct (owner s) as [t|] eqn:Ow.
  - left. pose proof (proj1 (inv_owner _ I t) Ow) as (p & E & Hp). exists t.
    assert (G : forall q o p1 ev, exists s', put s q o t p1 ev = Some (s', ev)) by (intros; eapply put_some; eauto).
    destruct p as [|o|o|o| |r| | |]; try discriminate.
    + exists Go. unfold step. rewrite E. destruct o; [|destruct (queue s)..|]; 
      match goal with |- context [put s ?q ?o t ?p1 ?ev] => destruct (G q o p1 ev) as [s' Hs] end; rewrite Hs; eauto.
    + exists Go. unfold step. rewrite E. destruct (queue s);
      match goal with |- context [put s ?q ?o t ?p1 ?ev] => destruct (G q o p1 ev) as [s' Hs] end; rewrite Hs; eauto.
    + destruct (existsb asleep (pcs s)) eqn:Ex.
      * apply existsb_exists in Ex. destruct Ex as (pk & Hin & Hpk). destruct pk; try discriminate.
        apply In_nth_error in Hin. destruct Hin as [k Ek]. exists (Wake k). unfold step. rewrite E, Ek.
        destruct (upd_some (pcs s) k Woken) as [l1 U1]; [eapply nth_error_some_lt; eauto|]. rewrite U1.
        assert (Hkt : k <> t) by congruence.
        assert (Et : nth_error l1 t = Some Notify) by (rewrite (upd_nth_neq _ _ _ _ _ U1 Hkt); exact E).
        destruct (put_some (State (queue s) (owner s) l1) (queue s) (owner s) t Notify (Leave Done) [] Et) as [s' Hs].
        rewrite Hs. eauto.
      * exists Go. unfold step. rewrite E, Ex. destruct (G (queue s) (owner s) (Leave Done) []) as [s' Hs]. rewrite Hs. eauto.
    + exists Go. unfold step. rewrite E. 
      match goal with |- context [put s ?q ?o t ?p1 ?ev] => destruct (G q o p1 ev) as [s' Hs] end; rewrite Hs; eauto.
    + exfalso. exact (inv_ok _ I _ E).
  - destruct (existsb (fun p => match p with Enter _ | Woken => true | _ => false end) (pcs s)) eqn:Ex.
    + left. apply existsb_exists in Ex. destruct Ex as (p & Hin & Hp). apply In_nth_error in Hin. destruct Hin as [t E].
      exists t, Go. unfold step. rewrite E, Ow.
      destruct p; try discriminate;
      match goal with |- context [put s ?q ?o t ?p1 ?ev] => destruct (put_some s q o t _ p1 ev E) as [s' Hs] end; rewrite Hs; eauto.
    + right. assert (H : forall t p, nth_error (pcs s) t = Some p -> p = Idle \/ p = Asleep).
      { intros t p E. destruct (holds p) eqn:Hp.
        - assert (owner s = Some t) by (apply (inv_owner _ I); eauto). congruence.
        - destruct p; try discriminate; auto; exfalso;
          rewrite <- not_true_iff_false in Ex; apply Ex; apply existsb_exists; eexists; (split; [eapply nth_error_In; exact E|reflexivity]). }
      split; [exact H|]. intros Sl. pose proof (inv_wake _ I Sl) as W.
      rewrite (tally_zero works) in W; [destruct (queue s); simpl in W; [auto|lia]|].
      intros i p E. destruct (H _ _ E) as [->| ->]; reflexivity.
Qed.

(* running a schedule *)
Fixpoint play s (sch : list (nat * act A)) : option (state A * list (event A)) :=
  match sch with
  | [] => Some (s, [])
  | (t, a) :: sch =>
      match step s t a with
      | Some (s', e) => match play s' sch with Some (s'', e') => Some (s'', e ++ e') | None => None end
      | None => None
      end
  end.
Lemma run_trans s es s' es' s'' : run s es s' -> run s' es' s'' -> run s (es ++ es') s''.
Proof.
  intros R R'. revert R. induction R' as [s'|s' es' s1 t a e s2 R' IH St]; intros R; [rewrite app_nil_r; auto|].
  rewrite app_assoc. econstructor; eauto.
Qed.
Lemma play_run s sch s' es : play s sch = Some (s', es) -> run s es s'.
Proof.
  revert s es. induction sch as [|[t a] sch IH]; intros s es; simpl; [intros [= <- <-]; constructor|].
  destruct (step s t a) as [[s1 e]|] eqn:E; [|discriminate].
  destruct (play s1 sch) as [[s2 e']|] eqn:E2; [|discriminate]. intros [= <- <-].
  apply (run_trans _ _ s1); [|auto]. change e with ([] ++ e). econstructor; [constructor|exact E].
Qed.
End PROOFS.
