(** C45: mutual exclusion of Mutex; C53: sleeping lockers are woken. *)
From Verif Require Import Prelude HashModel ParkModel ParkSpec ParkProofs MutexModel MutexSpec MutexProofs MutexProofs2.

(** For any number of threads and any interleaving, with spurious wake-ups and arbitrary interference of other users of the wait queue
    allowed: the events form a legal lock history, and a thread is inside the critical section exactly when it is the owner. *)
Theorem C45_mutual_exclusion : forall md lot addr n evs s, exec md lot addr (init n) evs s ->
  (exists o, legal None evs = Some o /\ forall t, owns s t <-> o = Some t) /\ (forall t u, owns s t -> owns s u -> t = u).
Proof.
  intros md lot addr n evs s H. destruct (inv_exec _ _ _ _ _ _ H) as (o & L & I). split.
  - exists o. split; [exact L|]. intros t. exact (inv_owns s o t I).
  - intros t u Ht Hu. apply (inv_owns s o t I) in Ht. apply (inv_owns s o u I) in Hu. congruence.
Qed.
Print Assumptions C45_mutual_exclusion.

Definition reach (md : mode) lot addr (s s' : state) : Prop := exists evs, exec md lot addr s evs s'.
Lemma reach_trans md lot addr s1 s2 s3 : reach md lot addr s1 s2 -> reach md lot addr s2 s3 -> reach md lot addr s1 s3.
Proof.
  intros [e1 H1] [e2 H2]. induction H2 as [s|s evs sa e sb H2 IH St]; [exists e1; exact H1|].
  destruct (IH H1) as [e3 H3]. exists (e3 ++ [e]). exact (ex_snoc _ _ _ _ _ _ _ _ H3 St).
Qed.
Lemma reach_step md lot addr s t p l sh' p' thr' : nth_error (thr s) t = Some p -> tstep md lot addr t (sh s) p l sh' p' -> upd (thr s) t p' = Some thr' ->
  reach md lot addr s (mkState sh' thr').
Proof.
  intros E T U. exists ([] ++ [(t, l)]). eapply ex_snoc; [apply ex_nil|]. econstructor; eassumption.
Qed.

(** A free mutex can be taken by any idle thread, by lock and by try_lock, whatever state the other threads are in. *)
Theorem C45_free_mutex_can_be_taken : forall md lot addr n evs s t, exec md lot addr (init n) evs s -> (forall u, ~ owns s u) -> nth_error (thr s) t = Some Idle ->
  exists evs' s', exec md lot addr s evs' s' /\ owns s' t /\ exists s'', exec md lot addr s [(t, Tau); (t, Tau); (t, Acquire)] s'' /\ nth_error (thr s'') t = Some Held.
Proof.
  intros md lot addr n evs s t H No Et. destruct (inv_exec _ _ _ _ _ _ H) as (o & _ & I).
  assert (o = None) as -> by (destruct o as [u|]; [exfalso; apply (No u); apply (inv_owns s (Some u) u I); reflexivity|reflexivity]).
  pose proof (i_word _ _ I) as W. cbn in W. destruct s as [[w q k] th]. cbn in W, Et. subst w.
  assert (Lt : t < length th) by (apply nth_error_Some; congruence).
  destruct (upd_some th t LLoad Lt) as [th1 U1]. destruct (upd_some th1 t (LCas 0)) as [th2 U2]; [rewrite (upd_length _ _ _ _ U1); exact Lt|].
  destruct (upd_some th2 t Held) as [th3 U3]; [rewrite (upd_length _ _ _ _ U2), (upd_length _ _ _ _ U1); exact Lt|].
  assert (X : exec md lot addr (mkState (mkS 0 q k) th) [(t, Tau); (t, Tau); (t, Acquire)] (mkState (mkS 1 q k) th3)).
  { change [(t, Tau); (t, Tau); (t, Acquire)] with ((([] ++ [(t, Tau)]) ++ [(t, Tau)]) ++ [(t, Acquire)]).
    eapply ex_snoc; [eapply ex_snoc; [eapply ex_snoc; [apply ex_nil|]|]|].
    - econstructor; [exact Et|apply s_lock|exact U1].
    - econstructor; [exact (upd_nth_eq _ _ _ _ U1)|apply s_lload|exact U2].
    - econstructor; [exact (upd_nth_eq _ _ _ _ U2)|apply s_lcas; reflexivity|exact U3]. }
  exists [(t, Tau); (t, Tau); (t, Acquire)], (mkState (mkS 1 q k) th3). split; [exact X|].
  split; [exists Held; split; [exact (upd_nth_eq _ _ _ _ U3)|exact Logic.I]|]. exists (mkState (mkS 1 q k) th3). split; [exact X|exact (upd_nth_eq _ _ _ _ U3)].
Qed.
Print Assumptions C45_free_mutex_can_be_taken.

(** C53.  While at most one thread at a time is inside the wait: no access to freed memory, and whenever a locker sleeps unsignalled,
    somebody owns the mutex or has released it and is about to wake a sleeper. *)
Theorem C53_no_lost_wakeup_partial : forall lot addr n s, exec1 lot addr (init n) s ->
  no_undefined lot addr s /\ forall t, asleep s t -> (exists u, owns s u) \/ exists u, waking s u.
Proof.
  intros lot addr n s H. destruct (j_exec1 lot addr n s H) as (o & l & JJ). split; [exact (j_no_undefined _ _ _ _ _ JJ)|].
  intros t. exact (j_no_lost _ _ _ _ _ t JJ).
Qed.
Print Assumptions C53_no_lost_wakeup_partial.

(** With two threads this is unconditional. *)
Theorem C53_two_threads : forall lot addr evs s, exec strict lot addr (init 2) evs s ->
  no_undefined lot addr s /\ forall t, asleep s t -> (exists u, owns s u) \/ exists u, waking s u.
Proof.
  intros lot addr evs s H. destruct (two_exec lot addr s evs H) as ((o & l & JJ) & _). split; [exact (j_no_undefined _ _ _ _ _ JJ)|].
  intros t. exact (j_no_lost _ _ _ _ _ t JJ).
Qed.
Print Assumptions C53_two_threads.

(** the spinning of a locker while the mutex is taken *)
Lemma spin md lot addr q k th t : forall m j, (N.of_nat m + j = 1024)%N -> nth_error th t = Some (Reload j) ->
  exists th', upd th t (Reload 1024) = Some th' /\ reach md lot addr (mkState (mkS 1 q k) th) (mkState (mkS 1 q k) th').
Proof.
  intros m. revert th. induction m as [|m IH]; intros th j E H.
  - assert (j = 1024%N) by lia. subst j. destruct (upd_some th t (Reload 1024)) as [th' U]; [apply nth_error_Some; congruence|].
    exists th'. split; [exact U|]. assert (th' = th) as ->.
    { apply nth_error_ext. intros i. rewrite (upd_get _ _ _ _ _ U). destruct (Nat.eqb_spec i t) as [->|]; [symmetry; exact H|reflexivity]. }
    exists []. apply ex_nil.
  - destruct (upd_some th t (Reload (j + 1))) as [th1 U1]; [apply nth_error_Some; congruence|].
    destruct (IH th1 (j + 1)%N ltac:(lia) (upd_nth_eq _ _ _ _ U1)) as (th2 & U2 & R2).
    destruct (upd_some th t (Reload 1024)) as [th3 U3]; [apply nth_error_Some; congruence|].
    assert (th3 = th2) as ->.
    { apply nth_error_ext. intros i. rewrite (upd_get _ _ _ _ _ U3), (upd_get _ _ _ _ _ U2), (upd_get _ _ _ _ _ U1). destruct (Nat.eqb i t); reflexivity. }
    exists th2. split; [exact U3|]. refine (reach_trans _ _ _ _ _ _ _ R2). eapply (reach_step _ _ _ _ t); [exact H|apply s_reload|].
    cbn [word sh]. unfold retry. cbn [negb N.eqb N.land kMask Pos.land]. unfold u32. rewrite N.mod_small by lia.
    destruct (N.ltb_spec spin_limit (j + 1)) as [L|_]; [unfold spin_limit in L; lia|]. exact U1.
Qed.

(** one locker of a taken mutex ends up sleeping *)
Ltac go t c := eapply reach_trans; [eapply (reach_step _ _ _ _ t); [reflexivity|c|reflexivity]|]; cbn [sh thr word que qlk].
Lemma fall_asleep lot addr q th t : nth_error th t = Some Idle -> forall q', q' = fst (insert_head (count_add q 1) (twang_mix64 addr) lot kMask) ->
  forall th', upd th t (Wait (length (qmem q)) 1025) = Some th' -> reach strict lot addr (mkState (mkS 1 q None) th) (mkState (mkS 1 q' None) th').
Proof.
  intros H q' Eq th' U.
  assert (Lt : t < length th) by (apply nth_error_Some; congruence).
  assert (Up : forall (th0 : list pc) (p : pc), length th0 = length th -> exists th1, upd th0 t p = Some th1 /\ length th1 = length th).
  { intros th0 p L0. destruct (upd_some th0 t p) as [th1 U1]; [lia|]. exists th1. split; [exact U1|]. rewrite (upd_length _ _ _ _ U1). exact L0. }
  assert (G : forall (th0 : list pc) (p : pc) th1, (forall i, i <> t -> nth_error th0 i = nth_error th i) -> upd th0 t p = Some th1 -> forall i, i <> t -> nth_error th1 i = nth_error th i).
  { intros th0 p th1 X U1 i Ni. rewrite (upd_nth_neq _ _ _ _ _ U1 (not_eq_sym Ni)). apply X. exact Ni. }
  destruct (Up th LLoad eq_refl) as (a1 & U1 & L1). pose proof (G th _ a1 (fun i _ => eq_refl) U1) as G1.
  destruct (Up a1 (Reload 1) L1) as (a2 & U2 & L2). pose proof (G a1 _ a2 G1 U2) as G2.
  destruct (spin strict lot addr q None a2 t 1023 1 eq_refl (upd_nth_eq _ _ _ _ U2)) as (a3 & U3 & R3).
  pose proof (G a2 _ a3 G2 U3) as G3. assert (L3 : length a3 = length th) by (rewrite (upd_length _ _ _ _ U3); exact L2).
  destruct (Up a3 (Park1 1 1025) L3) as (a4 & U4 & L4). pose proof (G a3 _ a4 G3 U4) as G4.
  destruct (Up a4 (Park2 1 1025) L4) as (a5 & U5 & L5). pose proof (G a4 _ a5 G4 U5) as G5.
  destruct (Up a5 (Park2a 1 1025) L5) as (a6 & U6 & L6). pose proof (G a5 _ a6 G5 U6) as G6.
  destruct (Up a6 (Park2b 1025) L6) as (a7 & U7 & L7). pose proof (G a6 _ a7 G6 U7) as G7.
  destruct (Up a7 (Wait (length (qmem q)) 1025) L7) as (a8 & U8 & L8). pose proof (G a7 _ a8 G7 U8) as G8.
  assert (th' = a8) as ->.
  { apply nth_error_ext. intros i. destruct (Nat.eq_dec i t) as [->|Ni].
    - rewrite (upd_nth_eq _ _ _ _ U), (upd_nth_eq _ _ _ _ U8). reflexivity.
    - rewrite (upd_nth_neq _ _ _ _ _ U (not_eq_sym Ni)), (G8 i Ni). reflexivity. }
  eapply reach_trans; [eapply (reach_step _ _ _ _ t); [exact H|apply s_lock|exact U1]|].
  eapply reach_trans; [eapply (reach_step _ _ _ _ t); [exact (upd_nth_eq _ _ _ _ U1)|apply s_lload|exact U2]|].
  eapply reach_trans; [exact R3|].
  eapply reach_trans; [eapply (reach_step _ _ _ _ t); [exact (upd_nth_eq _ _ _ _ U3)|apply s_reload|exact U4]|].
  eapply reach_trans; [eapply (reach_step _ _ _ _ t); [exact (upd_nth_eq _ _ _ _ U4)|apply s_park1|exact U5]|].
  eapply reach_trans; [eapply (reach_step _ _ _ _ t); [exact (upd_nth_eq _ _ _ _ U5)|apply s_park2; reflexivity|exact U6]|].
  eapply reach_trans; [eapply (reach_step _ _ _ _ t); [exact (upd_nth_eq _ _ _ _ U6)|apply s_park2a_yes; reflexivity|exact U7]|].
  subst q'. eapply (reach_step _ _ _ _ t); [exact (upd_nth_eq _ _ _ _ U7)|apply s_park2b|exact U8].
Qed.

(** FINDING: with three threads a locker can sleep for ever on a free mutex: its queue node has been freed, so no later unlock can find
    it, and its next look at the node is undefined. *)
Theorem C53_three_threads_refuted : exists s, reach strict 0 16 (init 3) s /\ word (sh s) = 0%N /\
  asleep s 1 /\ (forall u, ~ owns s u) /\ (forall u, ~ waking s u) /\ ~ no_undefined 0 16 s /\
  nth_error (thr s) 0 = Some Idle /\ nth_error (thr s) 2 = Some Idle.
Proof.
  eexists. split; [|].
  - eapply reach_trans; [unfold init; cbn [repeat]; go 0 ltac:(apply s_lock); go 0 ltac:(apply s_lload); go 0 ltac:(apply s_lcas; reflexivity); exists []; apply ex_nil|].
    eapply reach_trans; [eapply (fall_asleep 0 16 empty_queue _ 1); reflexivity|].
    eapply reach_trans; [eapply (fall_asleep 0 16 _ _ 2); reflexivity|].
    go 0 ltac:(apply s_unlock). go 0 ltac:(apply s_uload). go 0 ltac:(apply s_ucas; reflexivity).
    go 0 ltac:(apply s_unp1; discriminate). go 0 ltac:(apply s_unp2; reflexivity). go 0 ltac:(eapply s_unp3; vm_compute; reflexivity).
    go 2 ltac:(eapply s_wait; reflexivity). go 2 ltac:(apply s_reload). go 2 ltac:(apply s_acas; reflexivity).
    go 2 ltac:(apply s_unlock). go 2 ltac:(apply s_uload). go 2 ltac:(apply s_ucas; reflexivity).
    go 2 ltac:(apply s_unp1; discriminate). go 2 ltac:(apply s_unp2; reflexivity). go 2 ltac:(eapply s_unp3; vm_compute; reflexivity).
    exists []. apply ex_nil.
  - split; [reflexivity|]. split; [exists 0, 1025%N; split; [reflexivity|]; intros (n & Hn & _); vm_compute in Hn; discriminate|].
    split; [intros u (p & E & X); do 3 (destruct u as [|u]; [injection E as <-; destruct X|]); destruct u; discriminate|].
    split; [intros u (p & E & X); do 3 (destruct u as [|u]; [injection E as <-; destruct X|]); destruct u; discriminate|].
    split; [intros X; apply (X 1 _ eq_refl); reflexivity|]. split; reflexivity.
Qed.
Print Assumptions C53_three_threads_refuted.

(** the hypotheses of C53_two_threads are met by an execution in which the second thread sleeps while the first owns the mutex *)
Example two_threads_sleep : exists s, reach strict 0 16 (init 2) s /\ asleep s 1 /\ owns s 0.
Proof.
  eexists. split.
  - eapply reach_trans; [unfold init; cbn [repeat]; go 0 ltac:(apply s_lock); go 0 ltac:(apply s_lload); go 0 ltac:(apply s_lcas; reflexivity); exists []; apply ex_nil|].
    eapply (fall_asleep 0 16 empty_queue _ 1); reflexivity.
  - split; [exists 0, 1025%N; split; [reflexivity|]; intros (n & Hn & S); vm_compute in Hn; injection Hn as <-; discriminate|].
    exists Held. split; [reflexivity|exact I].
Qed.
