(* C83: threadsafe_queue is a linearizable first-in first-out queue without lost wake-ups. *)
From Verif Require Import Prelude TqModel TqSpec TqProofs.

Section PROPS.
Context {A : Type}.
Implicit Types (s : state A) (es : list (event A)).

(* Every operation takes effect at one moment between its call and its return, with the
   result it returns, and the effects form a history of a sequential queue. *)
Theorem C83_linearizable n es s : run (start n) es s ->
  history [] es (queue s) /\ forall t, orderly (mine t es).
Proof.
  intros R. destruct (run_all _ _ _ R) as (I & T & H). split; [exact H|]. intros t.
  destruct (nth_error (pcs s) t) as [p|] eqn:E.
  - destruct (T t p E) as (e1 & e2 & -> & C & P). apply orderly_app; auto. eapply pending_orderly; eauto.
  - replace (mine t es) with (@nil (event A)); [constructor|]. symmetry.
    apply nth_error_None in E. clear H T I.
    revert E. remember (start n) as s0 eqn:E0. clear E0.
    induction R as [s|s es s1 u a e s2 R IH St]; intros E; [reflexivity|].
    pose proof (step_length _ _ _ _ _ St) as L. rewrite mine_app, IH by lia. simpl.
    revert St. unfold step. destruct (nth_error (pcs s1) u) as [p|] eqn:Eu; [|discriminate].
    assert (Hu : u <> t) by (apply nth_error_some_lt in Eu; lia).
    assert (F : forall x : event A, thread_of x = u -> mine t [x] = [])
      by (intros x <-; unfold mine; simpl; destruct (Nat.eqb_spec (thread_of x) t); congruence).
    assert (G : forall q o p1 ev, put s1 q o u p1 ev = Some (s2, e) -> mine t ev = [] -> mine t e = [])
      by (intros q o p1 ev Hp; apply put_inv in Hp; destruct Hp as (l & _ & _ & ->); auto).
    destruct p as [|o|[v| | |]|o| |r| | |]; destruct a as [o1| |k|]; try discriminate; intros St;
      try (eapply G; [exact St|first [reflexivity|apply F; reflexivity]]; fail);
      try (destruct (owner s1); [discriminate|]; eapply G; [exact St|reflexivity]; fail);
      try (destruct (queue s1); eapply G; [exact St|first [reflexivity|apply F; reflexivity]| exact St|first [reflexivity|apply F; reflexivity]]; fail);
      try (destruct (queue s1); (eapply G; [exact St|first [reflexivity|apply F; reflexivity]]); fail).
    + destruct (existsb asleep (pcs s1)); [discriminate|]. eapply G; [exact St|reflexivity].
    + destruct (nth_error (pcs s1) k) as [pk|]; [|discriminate]. destruct pk; try discriminate.
      destruct (upd (pcs s1) k Woken); [|discriminate]. apply put_inv in St. destruct St as (? & _ & _ & ->). reflexivity.
Qed.

(* No value is lost, duplicated or reordered: what was pushed is what was popped, in
   that order, followed by what is still in the queue. *)
Theorem C83_fifo n es s : run (start n) es s -> pushed es = popped es ++ queue s.
Proof.
  intros R. destruct (run_all _ _ _ R) as (_ & _ & H).
  assert (G : forall q q', history q es q' -> q ++ pushed es = popped es ++ q'); [|exact (G _ _ H)].
  clear. induction es as [|e es IH]; intros q q' H; inversion H; subst; simpl; [rewrite app_nil_r; auto| |auto..].
  match goal with F : fifo _ _ _ _ |- _ => inversion F; subst end; simpl;
  match goal with H : history _ es _ |- _ => specialize (IH _ _ H) end; simpl in IH |- *; rewrite <- ?app_assoc in IH; simpl in IH; congruence.
Qed.

(* At most one thread is inside the queue, and no thread takes from an empty queue. *)
Theorem C83_exclusive n es s t t' p p' : run (start n) es s ->
  nth_error (pcs s) t = Some p -> nth_error (pcs s) t' = Some p' ->
  p <> Crashed /\
  (match p with Inside _ | Popping _ | Notify | Leave _ => True | _ => False end ->
   match p' with Inside _ | Popping _ | Notify | Leave _ => True | _ => False end -> t = t').
Proof.
  intros R H H'. destruct (run_all _ _ _ R) as (I & _ & _). split.
  - intros ->. exact (inv_ok _ I _ H).
  - intros Hp Hp'. assert (holds p = true) by (destruct p; tauto). assert (holds p' = true) by (destruct p'; tauto).
    pose proof (held _ _ _ I H H0). pose proof (held _ _ _ I H' H1). congruence.
Qed.

(* No wake-up is lost: as long as a thread inside the queue can go on, one does; once
   none can, all operations have returned except wait_and_pop calls sleeping while
   the queue is empty.  Spurious wake-ups are not needed for that. *)
Theorem C83_no_lost_wakeup n es s : run (start n) es s ->
  (exists t s' e, step s t Go = Some (s', e) \/ exists k, step s t (Wake k) = Some (s', e)) \/
  (forall t p, nth_error (pcs s) t = Some p -> p = Idle \/ p = Asleep) /\
  ((exists t, nth_error (pcs s) t = Some Asleep) -> queue s = []).
Proof.
  intros R. destruct (run_all _ _ _ R) as (I & _ & _). destruct (progress s I) as [(t & a & s' & e & Ha & St)|H]; [left|right; exact H].
  exists t, s', e. destruct a; try discriminate; eauto.
Qed.

(* Without new calls and spurious wake-ups the threads come to rest after at most
   eight steps per thread, under every schedule. *)
Inductive moves : nat -> state A -> state A -> Prop :=
| moves_nil s : moves 0 s s
| moves_go m s s' s'' t e : step s t Go = Some (s', e) -> moves m s' s'' -> moves (S m) s s''
| moves_wake m s s' s'' t k e : step s t (Wake k) = Some (s', e) -> moves m s' s'' -> moves (S m) s s''.
Theorem C83_comes_to_rest n es s m s' : run (start n) es s -> moves m s s' -> m <= 8 * n.
Proof.
  intros R M. assert (L : length (pcs s) = n).
  { clear M. remember (start n) as s0 eqn:E. revert E. induction R as [s|s es s1 t a e s2 R IH St]; intros ->.
    - apply repeat_length.
    - rewrite (step_length _ _ _ _ _ St). auto. }
  assert (B : m + tally steps_left (pcs s') <= tally steps_left (pcs s)).
  { clear R L. induction M as [|m s s1 s2 t e St M IH|m s s1 s2 t k e St M IH]; [lia|..].
    - pose proof (step_left _ _ _ _ _ (eq_refl : inner Go = true) St). lia.
    - pose proof (step_left _ _ _ _ _ (eq_refl : inner (Wake k) = true) St). lia. }
  pose proof (tally_le steps_left 8 (pcs s)) as Le. rewrite L in Le.
  assert (forall p : pc A, steps_left p <= 8) by (intros [| |[]| | | | | |]; simpl; lia). specialize (Le H). lia.
Qed.
End PROPS.
Print Assumptions C83_linearizable.
Print Assumptions C83_fifo.
Print Assumptions C83_exclusive.
Print Assumptions C83_no_lost_wakeup.
Print Assumptions C83_comes_to_rest.

(* Two consumers wait, a producer pushes 7 and wakes one, a try_pop overtakes the
   woken thread, which goes back to sleep; a second push then completes it. *)
Definition ex_schedule : list (nat * act nat) :=
  [(0, Start WaitPop); (0, Go); (0, Go); (1, Start WaitPop); (1, Go); (1, Go);
   (2, Start (Push 7)); (2, Go); (2, Go); (3, Start TryPop); (2, Wake 1); (2, Go);
   (3, Go); (3, Go); (3, Go); (3, Go); (1, Go); (1, Go);
   (2, Start (Push 8)); (2, Go); (2, Go); (2, Wake 0); (2, Go); (0, Go); (0, Go); (0, Go); (0, Go)].
Example C83_ex : exists es s, run (start 4) es s /\ queue s = [] /\ popped es = [7; 8] /\
  pcs s = [Idle; Asleep; Idle; Idle].
Proof.
  destruct (play (start 4) ex_schedule) as [[s es]|] eqn:E; [|vm_compute in E; discriminate].
  exists es, s. split; [exact (play_run _ _ _ _ E)|]. vm_compute in E. injection E as <- <-. repeat split.
Qed.
Example C83_ex_rest : exists es s s', run (start 2) es s /\ moves 3 s s' /\ queue s = [5] /\ queue s' = [].
Proof.
  destruct (play (start 2) [(0, Start (Push 5)); (0, Go); (0, Go); (0, Go); (0, Go); (0, Start WaitPop)]) as [[s es]|] eqn:E;
    [|vm_compute in E; discriminate].
  exists es, s. eexists. split; [exact (play_run _ _ _ _ E)|]. vm_compute in E. injection E as <- <-. split; [|split; [reflexivity|]].
  - do 3 (eapply moves_go with (t := 0); [reflexivity|]). constructor.
  - reflexivity.
Qed.
