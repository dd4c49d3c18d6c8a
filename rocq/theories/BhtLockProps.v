(** C27, wide keys: the lock-protected slot accesses of bht are indivisible. *)
From Verif Require Import Prelude BhtLockModel.
Local Open Scope nat_scope.

(** Specification: the calls, in this order and one after the other, on a slot holding v, leave it holding w: a load returns the value;
    a switch replaces the value exactly when it is the sentinel. *)
Inductive sequential {V} (sent : list V) : list V -> list (@op V * @result V) -> list V -> Prop :=
| Seq0 v : sequential sent v [] v
| SeqLoad v l w : sequential sent v l w -> sequential sent v (l ++ [(Load, Value w)]) w
| SeqHit v l k : sequential sent v l sent -> sequential sent v (l ++ [(Switch k, Switched true)]) k
| SeqMiss v l w k : sequential sent v l w -> w <> sent -> sequential sent v (l ++ [(Switch k, Switched false)]) w.

Section P.
Context {V : Type} (veq : forall a b : V, {a = b} + {a <> b}) (sent : list V).
Notation dim := (length sent).
Definition op_ok (o : @op V) : Prop := match o with Load => True | Switch k => length k = dim end.
Definition inside (th : @thread V) : Prop := match cur th with Some (Spin _) | None => False | _ => True end.
Definition held (c v : list V) (p : @pc V) : Prop :=
  match p with
  | Spin _ => False
  | Copy o d acc => op_ok o /\ d <= dim /\ v = c /\ acc = firstn d c
  | Write k d => length k = dim /\ d <= dim /\ c = sent /\ v = firstn d k ++ skipn d c
  | Unlock Load r => r = Value c /\ v = c
  | Unlock (Switch k) (Switched true) => c = sent /\ v = k /\ length k = dim
  | Unlock (Switch k) (Switched false) => c <> sent /\ v = c
  | Unlock (Switch k) _ => False
  end.
Definition ops_ok (th : @thread V) : Prop := Forall op_ok (todo th) /\ match cur th with Some (Spin o) => op_ok o | _ => True end.
Definition inv (v0 : list V) (s : @state V) : Prop := exists c, sequential sent v0 (log s) c /\ length c = dim
  /\ (forall i th, nth_error (threads s) i = Some th -> ops_ok th)
  /\ ((free (sl s) = true /\ val (sl s) = c /\ forall i th, nth_error (threads s) i = Some th -> ~ inside th)
     \/ (free (sl s) = false /\ exists i th p, nth_error (threads s) i = Some th /\ cur th = Some p /\ held c (val (sl s)) p
          /\ forall j th', nth_error (threads s) j = Some th' -> inside th' -> j = i)).

Lemma nth_upd_cases {A} (l l' : list A) i x j y : upd l i x = Some l' -> nth_error l' j = Some y -> (j = i /\ y = x) \/ (j <> i /\ nth_error l j = Some y).
Proof.
  intros Hu Hj. destruct (Nat.eq_dec j i) as [E|E].
  - subst j. rewrite (upd_nth_eq _ _ _ _ Hu) in Hj. left. split; congruence.
  - rewrite (upd_nth_neq _ _ _ _ _ Hu) in Hj; auto.
Qed.
Lemma rest_ok th : ops_ok th -> Forall op_ok (rest th).
Proof. intros [F _]. unfold rest. destruct (cur th); auto. destruct (todo th); simpl; auto. inversion F; auto. Qed.
Lemma write_next (k c : list V) d x v' : length k = length c -> nth_error k d = Some x -> upd (firstn d k ++ skipn d c) d x = Some v' -> v' = firstn (S d) k ++ skipn (S d) c.
Proof.
  intros L Hk Hu. pose proof (nth_error_some_lt _ _ _ Hk) as Hd.
  assert (N : forall j, nth_error v' j = nth_error (firstn (S d) k ++ skipn (S d) c) j); [|apply nth_error_ext; exact N].
  assert (G : forall e j, e <= length k -> nth_error (firstn e k ++ skipn e c) j = if j <? e then nth_error k j else nth_error c j).
  { intros e j He. destruct (Nat.ltb_spec j e) as [C|C].
    - rewrite nth_error_app1 by (rewrite firstn_length; lia). clear - C. revert e C k. induction j; intros [|e] C [|z k]; try lia; simpl; auto. apply IHj. lia.
    - rewrite nth_error_app2 by (rewrite firstn_length; lia). rewrite firstn_length, Nat.min_l by lia.
      rewrite <- (firstn_skipn e c) at 2. rewrite nth_error_app2 by (rewrite firstn_length; lia). rewrite firstn_length, Nat.min_l by lia. reflexivity. }
  intros j. rewrite G by lia. destruct (Nat.eq_dec j d) as [E|E].
  - subst j. rewrite (upd_nth_eq _ _ _ _ Hu). destruct (Nat.ltb_spec d (S d)); [auto|lia].
  - rewrite (upd_nth_neq _ _ _ _ _ Hu) by auto. rewrite G by lia. destruct (Nat.ltb_spec j d), (Nat.ltb_spec j (S d)); auto; lia.
Qed.
Lemma firstn_next (c : list V) d x : nth_error c d = Some x -> firstn d c ++ [x] = firstn (S d) c.
Proof. revert d. induction c as [|y c IH]; intros [|d] H; simpl in *; try discriminate; [congruence|]. f_equal. auto. Qed.

Lemma step_inv v0 s s' : inv v0 s -> step veq sent s s' -> inv v0 s'.
Proof.
  intros (c & Hs & Hl & Ho & Hc) St.
  assert (Oth : forall i th ths x, nth_error (threads s) i = Some th -> upd (threads s) i x = Some ths -> ops_ok x -> forall j y, nth_error ths j = Some y -> ops_ok y).
  { intros i th ths x Hn Hu Hx j y Hj. destruct (nth_upd_cases _ _ _ _ _ _ Hu Hj) as [[-> ->]|[_ Hy]]; eauto. }
  destruct St as [s i th p s1 p' ths Hn Hb Hst Hu|s i th p s1 o r ths Hn Hb Hst Hu].
  - pose proof (Ho i th Hn) as Hth. pose proof (rest_ok th Hth) as Hrest.
    assert (Self : nth_error ths i = Some {| cur := Some p'; todo := rest th |}) by apply (upd_nth_eq _ _ _ _ Hu).
    destruct p as [o|o d acc|k d|o r]; cbn [step_op] in Hst.
    + (* spin *)
      assert (Oo : op_ok o). { destruct Hth as [F1 F2]. unfold begin in Hb. destruct (cur th) as [q|]; [inversion Hb; subst; auto|]. destruct (todo th); inversion Hb; subst. inversion F1; auto. }
      assert (Ni : ~ inside th). { unfold inside, begin in *. destruct (cur th) as [q|]; [inversion Hb; subst; auto|auto]. }
      destruct (free (sl s)) eqn:Ef; inversion Hst; subst; clear Hst.
      * exists c. split; [auto|]. split; [auto|]. split; [eapply Oth; eauto; split; [auto|exact Logic.I]|].
        destruct Hc as [(_ & Hv & Hno)|(F & _)]; [|congruence]. right. cbn. split; [auto|].
        exists i, {| cur := Some (Copy o 0 []); todo := rest th |}, (Copy o 0 []). split; [auto|]. split; [auto|]. split; [cbn; repeat split; auto; lia|].
        intros j th' Hj Hin. destruct (nth_upd_cases _ _ _ _ _ _ Hu Hj) as [[-> ->]|[_ Hy]]; [auto|]. elim (Hno j th' Hy Hin).
      * exists c. split; [auto|]. split; [auto|]. split; [eapply Oth; eauto; split; auto|].
        destruct Hc as [(F & _)|(F & i0 & th0 & q & H1 & H2 & H3 & H4)]; [congruence|]. right. cbn. split; [auto|].
        assert (i0 <> i). { intros ->. rewrite H1 in Hn. inversion Hn; subst th0. apply Ni. unfold inside. rewrite H2. destruct q; auto. }
        exists i0, th0, q. split; [rewrite (upd_nth_neq _ _ _ _ _ Hu); auto|]. split; [auto|]. split; [auto|].
        intros j th' Hj Hin. destruct (nth_upd_cases _ _ _ _ _ _ Hu Hj) as [[-> ->]|[_ Hy]]; [destruct Hin|]. eauto.
    + assert (Ec : cur th = Some (Copy o d acc)). { unfold begin in Hb. destruct (cur th); [congruence|]. destruct (todo th); congruence. }
      assert (Hi : inside th) by (unfold inside; rewrite Ec; exact Logic.I).
      destruct Hc as [(_ & _ & Hno)|(F & i0 & th0 & q & H1 & H2 & H3 & H4)]; [elim (Hno i th Hn Hi)|].
      assert (i0 = i) by (symmetry; eauto). subst i0. rewrite H1 in Hn. inversion Hn; subst th0. rewrite Ec in H2. inversion H2; subst q. clear H2.
      cbn in H3. destruct H3 as (K1 & K2 & K3 & K4).
      assert (Fin : s1 = sl s -> held c (val (sl s)) p' -> inv v0 {| sl := s1; threads := ths; log := log s |}).
      { intros -> Hp. exists c. split; [auto|]. split; [auto|]. split; [eapply Oth; eauto; split; [auto|destruct p'; cbn in *; auto; destruct Hp]|].
        right. cbn. split; [auto|]. exists i, {| cur := Some p'; todo := rest th |}, p'. split; [auto|]. split; [auto|]. split; [auto|].
        intros j th' Hj Hin. destruct (nth_upd_cases _ _ _ _ _ _ Hu Hj) as [[-> ->]|[_ Hy]]; [auto|]. eauto. }
      destruct (Nat.eqb_spec d dim) as [E|E].
      * rewrite E, <- Hl, firstn_all in K4. subst acc. destruct o as [|k].
        -- inversion Hst; subst s1 p'. apply Fin; [auto|]. cbn. auto.
        -- destruct (list_eq_dec veq c sent) as [E2|E2]; inversion Hst; subst s1 p'; apply Fin; auto; cbn.
           ++ cbn in K1. repeat split; auto. lia.
           ++ auto.
      * destruct (nth_error (val (sl s)) d) as [x|] eqn:Ex; [|discriminate]. inversion Hst; subst s1 p'. apply Fin; [auto|]. cbn. subst acc. rewrite K3 in Ex. rewrite (firstn_next c d x Ex). repeat split; auto. lia.
    + assert (Ec : cur th = Some (Write k d)). { unfold begin in Hb. destruct (cur th); [congruence|]. destruct (todo th); congruence. }
      assert (Hi : inside th) by (unfold inside; rewrite Ec; exact Logic.I).
      destruct Hc as [(_ & _ & Hno)|(F & i0 & th0 & q & H1 & H2 & H3 & H4)]; [elim (Hno i th Hn Hi)|].
      assert (i0 = i) by (symmetry; eauto). subst i0. rewrite H1 in Hn. inversion Hn; subst th0. rewrite Ec in H2. inversion H2; subst q. clear H2.
      cbn in H3. destruct H3 as (K1 & K2 & K3 & K4).
      assert (Fin : free s1 = false -> held c (val s1) p' -> inv v0 {| sl := s1; threads := ths; log := log s |}).
      { intros Hf Hp. exists c. split; [auto|]. split; [auto|]. split; [eapply Oth; eauto; split; [auto|destruct p'; cbn in *; auto; destruct Hp]|].
        right. cbn. split; [auto|]. exists i, {| cur := Some p'; todo := rest th |}, p'. split; [auto|]. split; [auto|]. split; [auto|].
        intros j th' Hj Hin. destruct (nth_upd_cases _ _ _ _ _ _ Hu Hj) as [[-> ->]|[_ Hy]]; [auto|]. eauto. }
      destruct (Nat.eqb_spec d dim) as [E|E].
      * inversion Hst; subst s1 p'. apply Fin; [auto|]. cbn. split; [auto|]. rewrite K4, E. rewrite <- K1 at 1. rewrite firstn_all, K3, skipn_all, app_nil_r. auto.
      * destruct (nth_error k d) as [x|] eqn:Ex; [|discriminate]. destruct (upd (val (sl s)) d x) as [v'|] eqn:Ev; [|discriminate]. inversion Hst; subst s1 p'. apply Fin; [auto|]. cbn.
        rewrite K4 in Ev. repeat split; auto; [lia|]. eapply write_next; eauto. congruence.
    + discriminate.
  - pose proof (Ho i th Hn) as Hth. pose proof (rest_ok th Hth) as Hrest.
    destruct p as [o0|o0 d acc|k d|o0 r0]; cbn [step_op] in Hst.
    { destruct (free (sl s)); discriminate. }
    { destruct (d =? dim); [destruct o0; [discriminate|destruct (list_eq_dec veq acc sent); discriminate]|destruct (nth_error (val (sl s)) d); discriminate]. }
    { destruct (d =? dim); [discriminate|]. destruct (nth_error k d) as [x|]; [|discriminate]. destruct (upd (val (sl s)) d x); discriminate. }
    inversion Hst; subst o r s1. clear Hst.
    assert (Ec : cur th = Some (Unlock o0 r0)). { unfold begin in Hb. destruct (cur th); [congruence|]. destruct (todo th); congruence. }
    assert (Hi : inside th) by (unfold inside; rewrite Ec; exact Logic.I).
    destruct Hc as [(_ & _ & Hno)|(F & i0 & th0 & q & H1 & H2 & H3 & H4)]; [elim (Hno i th Hn Hi)|].
    assert (i0 = i) by (symmetry; eauto). subst i0. rewrite H1 in Hn. inversion Hn; subst th0. rewrite Ec in H2. inversion H2; subst q. clear H2.
    assert (Fin : forall c', length c' = dim -> val (sl s) = c' -> sequential sent v0 (log s ++ [(o0, r0)]) c' -> inv v0 {| sl := {| free := true; val := val (sl s) |}; threads := ths; log := log s ++ [(o0, r0)] |}).
    { intros c' Hlc Hv Hsq. exists c'. split; [auto|]. split; [auto|]. split; [eapply Oth; eauto; split; [auto|exact Logic.I]|].
      left. cbn. split; [auto|]. split; [auto|]. intros j th' Hj Hin. destruct (nth_upd_cases _ _ _ _ _ _ Hu Hj) as [[-> ->]|[Hne Hy]]; [destruct Hin|]. apply Hne. eauto. }
    cbn in H3. destruct o0 as [|k].
    + destruct H3 as [-> Hv]. apply (Fin c); auto. constructor; auto.
    + destruct r0 as [k'|[|]]; [destruct H3| |].
      * destruct H3 as (E & Hv & Hk). subst c. apply (Fin k); auto. constructor; auto.
      * destruct H3 as (E & Hv). apply (Fin c); auto. constructor; auto.
Qed.
Lemma init_inv v0 progs : length v0 = dim -> Forall (Forall op_ok) progs -> inv v0 (init v0 progs).
Proof.
  intros Hl Hp. exists v0. split; [constructor|]. split; [auto|].
  assert (N : forall i th, nth_error (threads (init v0 progs)) i = Some th -> cur th = None /\ Forall op_ok (todo th)).
  { intros i th Hn. cbn in Hn. apply nth_error_In in Hn. apply in_map_iff in Hn. destruct Hn as (p & <- & Hin). rewrite Forall_forall in Hp. cbn. auto. }
  split; [intros i th Hn; destruct (N i th Hn) as [E1 E2]; split; [auto|rewrite E1; exact I]|].
  left. cbn [sl init free val]. split; [auto|]. split; [auto|]. intros i th Hn. unfold inside. destruct (N i th Hn) as [-> _]. auto.
Qed.
Lemma inv_safe v0 s : inv v0 s -> ~ crashes veq sent s.
Proof.
  intros (c & Hs & Hl & Ho & Hc) (th & p & Hin & Hb & Hu). apply In_nth_error in Hin. destruct Hin as [i Hi].
  assert (H : inside th \/ exists o, p = Spin o). { unfold inside, begin in *. destruct (cur th) as [q|]; [inversion Hb; subst; destruct p; eauto|]. destruct (todo th); inversion Hb; eauto. }
  destruct H as [H|[o ->]].
  2:{ cbn in Hu. destruct (free (sl s)); discriminate. }
  destruct Hc as [(_ & _ & Hno)|(F & i0 & th0 & q & H1 & H2 & H3 & H4)]; [elim (Hno i th Hi H)|].
  assert (i = i0) by eauto. subst i0. rewrite H1 in Hi. inversion Hi; subst th0. assert (q = p). { unfold begin in Hb. rewrite H2 in Hb. congruence. } subst q.
  destruct p as [o|o d acc|k d|o r]; cbn in Hu, H3; [destruct H3| | |discriminate].
  - destruct H3 as (K1 & K2 & K3 & K4). destruct (Nat.eqb_spec d dim) as [E|E]; [destruct o; [discriminate|destruct (list_eq_dec veq acc sent); discriminate]|].
    destruct (nth_error_lt_some (val (sl s)) d) as [x Hx]; [rewrite K3; lia|]. rewrite Hx in Hu. discriminate.
  - destruct H3 as (K1 & K2 & K3 & K4). destruct (Nat.eqb_spec d dim) as [E|E]; [discriminate|].
    destruct (nth_error_lt_some k d) as [x Hx]; [lia|]. rewrite Hx in Hu.
    destruct (upd_some (val (sl s)) d x) as [l Hlq]; [rewrite K4, app_length, firstn_length, skipn_length; lia|]. rewrite Hlq in Hu. discriminate.
Qed.
Lemma wide_ok v0 progs s : length v0 = dim -> Forall (Forall op_ok) progs -> steps veq sent (init v0 progs) s ->
  ~ crashes veq sent s /\ exists w, sequential sent v0 (log s) w /\ ((forall th, In th (threads s) -> cur th = None) -> free (sl s) = true /\ val (sl s) = w).
Proof.
  intros Hl Hp R. assert (I : inv v0 s).
  { remember (init v0 progs) as st. induction R as [s|s s1 s2 R IH St]; subst; [apply init_inv; auto|]. eapply step_inv; eauto. }
  split; [eapply inv_safe; eauto|]. destruct I as (c & Hs & _ & _ & Hc). exists c. split; [auto|]. intros Hq.
  destruct Hc as [(F & Hv & _)|(F & i & th & p & H1 & H2 & _)]; [auto|]. apply nth_error_In in H1. rewrite (Hq th H1) in H2. discriminate.
Qed.
End P.

(** Any number of threads loading and switching one slot with a wide key: the calls that have returned form, in the order of their
    returns, a one-after-the-other execution; when no call is in progress the slot holds its final value; no access is out of range. *)
Theorem C27_wide_key_slot_accesses_indivisible : forall (V : Type) (veq : forall a b : V, {a = b} + {a <> b}) (sent v0 : list V) progs s,
  length v0 = length sent -> (forall p k, In p progs -> In (Switch k) p -> length k = length sent) -> steps veq sent (init v0 progs) s ->
  ~ crashes veq sent s /\ exists w, sequential sent v0 (log s) w /\ ((forall th, In th (threads s) -> cur th = None) -> free (sl s) = true /\ val (sl s) = w).
Proof.
  intros V veq sent v0 progs s Hl Hp R. apply (wide_ok veq sent v0 progs s Hl); [|exact R].
  apply Forall_forall. intros p Hin. apply Forall_forall. intros [|k] Ho; cbn; [exact I|eauto].
Qed.
Print Assumptions C27_wide_key_slot_accesses_indivisible.

(** two threads race to claim an empty three-component slot while holding the lock in turn *)
Example C27_wide_case : exists s, steps Nat.eq_dec [63; 63; 63] (init [63; 63; 63] [[Switch [1; 2; 3]]; [Switch [4; 5; 6]; Load]]) s
  /\ log s = [(Switch [4; 5; 6], Switched true)] /\ val (sl s) = [4; 5; 6].
Proof.
  eexists. split; [|split].
  - eapply StepsS. eapply StepsS. eapply StepsS. eapply StepsS. eapply StepsS. eapply StepsS. eapply StepsS. eapply StepsS. eapply StepsS. eapply StepsS. apply Steps0.
    all: try (eapply StepG with (i := 1); reflexivity). eapply StepR with (i := 1); reflexivity.
  - reflexivity.
  - reflexivity.
Qed.
