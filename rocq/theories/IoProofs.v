From Coq Require Import Arith List Lia Bool.
From Verif Require Import IoModel IoSpec.
Import ListNotations.

Definition inv (s : state) : Prop :=
  pushed s = finished s ++ current s ++ jobs s /\
  prefix (asked s) (pushed s) /\
  (flush s = FReturned -> prefix (asked s) (finished s ++ current s)) /\
  (worker s = Asleep -> jobs s <> [] -> pending s > 0) /\
  (late s = false -> (dtor s = DStop \/ dtor s = DJoin \/ dtor s = DDone) -> jobs s = []) /\
  (running s = false -> dtor s = DJoin \/ dtor s = DDone) /\
  (worker s = Exited -> running s = false) /\
  (dtor s = DDone -> worker s = Exited) /\
  (worker s = Fall -> jobs s = []).

Lemma prefix_app a b c : prefix a b -> prefix a (b ++ c).
Proof. intros (d & ->). exists (d ++ c). rewrite app_assoc. reflexivity. Qed.
Lemma prefix_refl a : prefix a a.
Proof. exists []. rewrite app_nil_r. reflexivity. Qed.
Lemma inv_init : inv init.
Proof. unfold inv; cbn. repeat split; try discriminate; auto using prefix_refl; try congruence. Qed.

Lemma step_inv spur s a s' : inv s -> step spur s a = Some s' -> inv s'.
Proof.
  intros I E. destruct s as [r q w d f n p fin ask la]. unfold inv, current in I. cbn in I.
  destruct I as (A & B & C & D & F & G & H & K & FL).
  destruct a; cbn in E; unfold worker_step, dtor_step, flush_step, may_push in E; cbn in E.
  - destruct w; try discriminate; cbn in *.
    + injection E as <-. unfold inv, current; cbn. destruct r; cbn; repeat split; auto; try discriminate; intros X; specialize (K X); discriminate.
    + injection E as <-. unfold inv, current; cbn. destruct r; cbn; repeat split; auto; try discriminate; intros X; specialize (K X); discriminate.
    + injection E as <-. unfold inv, current; cbn. destruct q; cbn; repeat split; auto; try discriminate; try congruence;
        intros X; specialize (K X); discriminate.
    + injection E as <-. unfold inv, current; cbn. repeat split; auto; try discriminate.
      * intros _ X. destruct (X (FL eq_refl)).
      * intros X; specialize (K X); discriminate.
    + destruct q as [|j q]; injection E as <-; unfold inv, current; cbn; cbn in *; repeat split; auto; try discriminate;
        try (intros X; specialize (K X); discriminate).
      * intros X. destruct (C X) as (c & Q). exists (c ++ [j]). rewrite app_assoc, <- Q, app_nil_r. reflexivity.
      * intros X Y. specialize (F X Y). discriminate.
    + injection E as <-. unfold inv, current; cbn. repeat split; auto; try discriminate.
      * rewrite A, <- app_assoc. reflexivity.
      * rewrite app_nil_r. auto.
      * intros X; specialize (K X); discriminate.
  - assert (N : d = DIdle \/ exists k, w = Exec k /\ d <> DDone).
    { destruct w, d; try discriminate; auto; right; eexists; split; eauto; discriminate. }
    assert (NF : w <> Fall) by (intros ->; destruct d; discriminate).
    assert (X : s' = push (State r q w d f n p fin ask la) j) by (destruct w, d; congruence). subst s'. clear E.
    unfold inv, current, push; cbn. repeat split; auto.
    + rewrite A, <- !app_assoc. reflexivity.
    + apply prefix_app; auto.
    + intros; lia.
    + destruct N as [->|(k & -> & N)]; [intros _ [|[|]]; discriminate|].
      destruct d; try discriminate. intros _ [|[|]]; discriminate.
    + intros X. destruct (NF X).
  - destruct n; [discriminate|]. injection E as <-. unfold inv, current; cbn.
    replace (match wake w with Exec j => [j] | _ => [] end) with (match w with Exec j => [j] | _ => [] end) by (destruct w; reflexivity).
    repeat split; auto.
    + intros X. destruct w; discriminate.
    + intros X. apply H. destruct w; auto; discriminate.
    + intros X. rewrite (K X). reflexivity.
    + intros X. destruct w; auto; discriminate.
  - destruct f, d; try discriminate; injection E as <-; unfold inv, current; cbn; repeat split; auto using prefix_refl; discriminate.
  - destruct f; try discriminate; injection E as <-; unfold inv, current; cbn.
    + repeat split; auto. destruct q; [|discriminate]. intros _. rewrite app_nil_r in A. rewrite <- A. auto.
    + replace (match wake w with Exec j => [j] | _ => [] end) with (match w with Exec j => [j] | _ => [] end) by (destruct w; reflexivity).
      repeat split; auto; try discriminate.
      * intros X. destruct w; discriminate.
      * intros X. apply H. destruct w; auto; discriminate.
      * intros X. rewrite (K X). reflexivity.
      * intros X. destruct w; auto; discriminate.
  - destruct d, f, n; try discriminate; injection E as <-; unfold inv, current; cbn; repeat split; auto; try discriminate;
      try (intros _ [|[|]]; discriminate); intros X; destruct (G X); discriminate.
  - destruct d; try discriminate.
    + injection E as <-. unfold inv, current; cbn. repeat split; auto; destruct q; try discriminate; auto;
        try (intros _ [|[|]]; discriminate); intros X; destruct (G X); discriminate.
    + injection E as <-. unfold inv, current; cbn.
      replace (match wake w with Exec j => [j] | _ => [] end) with (match w with Exec j => [j] | _ => [] end) by (destruct w; reflexivity).
      repeat split; auto; try discriminate.
      * intros X. destruct w; discriminate.
      * intros _ [|[|]]; discriminate.
      * intros X. destruct (G X); discriminate.
      * intros X. apply H. destruct w; auto; discriminate.
      * intros X. destruct w; auto; discriminate.
    + injection E as <-. unfold inv, current; cbn. repeat split; auto; discriminate.
    + destruct w; try discriminate. injection E as <-. unfold inv, current; cbn in *. repeat split; auto.
  - destruct spur; [|discriminate]. destruct w; try discriminate. injection E as <-. unfold inv, current; cbn in *.
    repeat split; auto; try discriminate. intros X; specialize (K X); discriminate.
Qed.
Lemma run_inv spur l s s' : inv s -> run spur s l = Some s' -> inv s'.
Proof.
  revert s. induction l as [|a l IH]; cbn; intros s I E; [congruence|].
  destruct (step spur s a) eqn:Q; [|discriminate]. exact (IH _ (step_inv _ _ _ _ I Q) E).
Qed.
Lemma reach_inv spur s : reachable spur s -> inv s.
Proof. intros (l & R). exact (run_inv _ _ _ _ inv_init R). Qed.

(** The trap: asleep, nothing to do, destruction under way. *)
Definition trap (s : state) : Prop :=
  worker s = Asleep /\ jobs s = [] /\ pending s = 0 /\ (flush s = FIdle \/ flush s = FReturned) /\ (dtor s = DTest \/ dtor s = DStop \/ dtor s = DJoin).
Lemma trap_step s a s' : trap s -> step false s a = Some s' -> trap s'.
Proof.
  destruct s as [r q w d f n p fin ask la]. intros (A & B & C & D & E) S. cbn in *. subst.
  destruct a; cbn in S; unfold dtor_step, flush_step, may_push in S; cbn in S; try discriminate.
  - destruct E as [->|[->| ->]]; discriminate.
  - destruct D as [->| ->], E as [->|[->| ->]]; discriminate.
  - destruct D as [->| ->]; discriminate.
  - destruct D as [->| ->], E as [->|[->| ->]]; discriminate.
  - destruct E as [->|[->| ->]]; try discriminate; injection S as <-; unfold trap; cbn; auto 10.
Qed.
Lemma trap_run l s s' : trap s -> run false s l = Some s' -> trap s'.
Proof.
  revert s. induction l as [|a l IH]; cbn; intros s I E; [congruence|].
  destruct (step false s a) eqn:Q; [|discriminate]. exact (IH _ (trap_step _ _ _ I Q) E).
Qed.

(** The flag is cleared before the join. *)
Definition stopped (s : state) : Prop := dtor s = DJoin \/ dtor s = DDone -> running s = false.
Lemma stopped_step spur s a s' : stopped s -> step spur s a = Some s' -> stopped s'.
Proof.
  unfold stopped. destruct s as [r q w d f n p fin ask la]. intros A S.
  destruct a; cbn in S; unfold worker_step, dtor_step, flush_step, may_push in S; cbn in *.
  - destruct w; try discriminate; try (injection S as <-; exact A). destruct q; injection S as <-; exact A.
  - destruct w, d; try discriminate; injection S as <-; exact A.
  - destruct n; [discriminate|]. injection S as <-; exact A.
  - destruct f, d; try discriminate; injection S as <-; exact A.
  - destruct f; try discriminate; injection S as <-; exact A.
  - destruct d, f, n; try discriminate; injection S as <-; cbn; intros [|]; discriminate.
  - destruct d; try discriminate.
    + injection S as <-; cbn. destruct q; intros [|]; discriminate.
    + injection S as <-; cbn. intros [|]; discriminate.
    + injection S as <-; reflexivity.
    + destruct w; try discriminate. injection S as <-; cbn. auto.
  - destruct spur, w; try discriminate. injection S as <-; exact A.
Qed.
Lemma stopped_run spur l s s' : stopped s -> run spur s l = Some s' -> stopped s'.
Proof.
  revert s. induction l as [|a l IH]; cbn; intros s I E; [injection E as <-; exact I|].
  destruct (step spur s a) eqn:Q; [|discriminate]. exact (IH _ (stopped_step _ _ _ _ I Q) E).
Qed.
