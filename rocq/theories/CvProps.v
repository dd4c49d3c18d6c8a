(** C97: the condition variable. The full claim (a notification wakes the threads that wait, a wait returns only after a notification, with the mutex
    held, and none of it is undefined) is false of the code as soon as two threads wait, the same thread waits twice and notify_all is used, or a
    wait times out. Proved: everything for one waiting thread at a time and any number of notifying threads. *)
From Verif Require Import Prelude HashModel ParkModel ParkSpec ParkProofs ParkProofs2 CvModel CvSpec CvProofs CvProofs2.

(** Whoever waits and notifies: the mutex changes hands properly, at most one thread runs with the mutex, and wait returns (event Lock, back outside) with it. *)
Theorem C97_mutex : forall md lot addr evs s, exec md lot addr evs s ->
  owner None evs = Some (mtx (sh s)) /\ (forall t u, has_mutex s t -> has_mutex s u -> t = u) /\
  (forall t s', step md lot addr s (t, Lock) s' -> (forall u, ~ has_mutex s u) /\ has_mutex s' t).
Proof.
  intros md lot addr evs s X. destruct (mutex_inv _ _ _ _ _ X) as (O & M). split; [exact O|]. split; [intros t u H K; apply M in H, K; congruence|].
  intros t s' S. inversion S as [s1 t1 l sh' p' T E1 E2 E3]; subst. inversion T; subst; (split; [intros u H2; apply M in H2; congruence|]); unfold has_mutex; cbn [thr]; rewrite set_same; exact I.
Qed.
Print Assumptions C97_mutex.

(** One waiting thread: when a notification returns, by whichever way, the thread that has entered the queue is signalled, or another notify_all has cleared
    the flag and is about to walk the queue. *)
Theorem C97_notified_partial : forall w all lot addr evs s t l s', exec (single w all) lot addr evs s -> step (single w all) lot addr s (t, l) s' -> returns l ->
  asleep s' w -> sweeping s'.
Proof.
  intros w all lot addr evs s t l s' X S R (a & Q & NS).
  assert (X' : exec (single w all) lot addr (evs ++ [(t, l)]) s') by (econstructor; eassumption).
  destruct (inv_exec _ _ _ _ _ _ X) as (l0 & V). destruct (inv_exec _ _ _ _ _ _ X') as (l1 & V'). apply sweeping_swept.
  pose proof (i_w _ _ _ _ _ _ _ V') as W. unfold wok in W.
  assert (SL : sleeping (que (sh s')) a /\ (seq (sh s') <> 0%N \/ swept (thr s'))).
  { destruct Q as [Q|Q]; rewrite Q in W; destruct W as (_ & _ & [(Y & _)|Y]); [contradiction|exact Y|contradiction|exact Y]. }
  destruct SL as (SL & [SQ|SQ]); [|exact SQ]. exfalso. unfold queued in Q. inversion S as [s1 t1 l1' sh' p' T E1 E2 E3]; subst. cbn [sh thr] in *.
  inversion T as [sx G1 G2 G3 G4 G5|sx G2 G3 G4 G5|sx G1 G2 G3 G4 G5|sx G2 G3 G4 G5|sx G1 G2 G3 G4 G5|sx G2 G3 G4 G5|sx G2 G3 G4 G5|sx a0 G2 G3 G4 G5|sx a0 n0 G0 G1 G2 G3 G4 G5|sx a0 q' b G0 G1 G9 G2 G3 G4 G5|sx G1 G2 G3 G4 G5|sx h G2 G3 G4 G5|sx h G1 G2 G3 G4 G5|sx h b G1 G2 G3 G4 G5|sx h b G1 G2 G3 G4 G5|sx h G2 G3 G4 G5|sx h b G1 G2 G3 G4 G5|sx h b G1 G2 G3 G4 G5|sx h b G1 G2 G3 G4 G5|sx h b q' G1 G2 G3 G4 G5]; subst; destruct R as [R|R]; try discriminate.
  - contradiction.
  - (* the queue is not empty *)
    assert (TW : t <> w) by (intros ->; destruct Q as [Q|Q]; rewrite set_same in Q; discriminate).
    rewrite set_other in Q by congruence. pose proof (i_count _ _ _ _ _ _ _ V) as Z. pose proof (i_w _ _ _ _ _ _ _ V) as W0. unfold wok in W0.
    assert (exists l', l0 = a :: l') as (l' & ->) by (destruct Q as [Q|Q]; rewrite Q in W0; apply W0). assert (0 <= pre (thr s w))%Z by (unfold pre; destruct (thr s w); lia). cbn [length] in Z. lia.
  - destruct (walked w lot addr (sh s) (thr s) l0 evs t h b q' V (eq_sym G3) G1) as (l2 & _ & SG).
    apply NS. cbn [que]. apply SG. destruct (Nat.eq_dec t w) as [-> |TW]; [destruct Q as [Q|Q]; rewrite set_same in Q; discriminate|]. rewrite set_other in Q by congruence. exact Q.
Qed.
Print Assumptions C97_notified_partial.
(** Without notify_all, no notification is ever lost: when notify_one returns the waiting thread is signalled. *)
Lemma no_alls md lot addr evs s : exec md lot addr evs s -> alls md = false -> forall u, (match thr s u with N1 _ b | N2 _ b | N3 _ b | N4 _ b => b | NS _ => true | _ => false end) = false.
Proof.
  intros X A. induction X as [|evs s1 e s2 X IH S]; [reflexivity|]. inversion S as [s t l sh' p' T E1 E2 E3]; subst. intros u. cbn [thr]. destruct (Nat.eq_dec u t) as [-> |N]; [rewrite set_same|rewrite set_other by exact N; apply IH].
  specialize (IH t). inversion T as [| | | | | | | | | | | |sx h G1 G2 G3 G4 G5|sx h b G1 G2 G3 G4 G5|sx h b G1 G2 G3 G4 G5|sx h G2 G3 G4 G5|sx h b G1 G2 G3 G4 G5|sx h b G1 G2 G3 G4 G5|sx h b G1 G2 G3 G4 G5|sx h b q' G1 G2 G3 G4 G5]; subst; try reflexivity; try congruence; rewrite <- G3 in IH; try exact IH; try reflexivity.
  subst b. reflexivity.
Qed.
Theorem C97_notify_one : forall w lot addr evs s t l s', exec (single w false) lot addr evs s -> step (single w false) lot addr s (t, l) s' -> returns l -> ~ asleep s' w.
Proof.
  intros w lot addr evs s t l s' X S R A. pose proof (C97_notified_partial _ _ _ _ _ _ _ _ _ X S R A) as (u & h & H).
  assert (X' : exec (single w false) lot addr (evs ++ [(t, l)]) s') by (econstructor; eassumption).
  pose proof (no_alls _ _ _ _ _ X' eq_refl u) as F. destruct H as [H|[H|H]]; rewrite H in F; discriminate.
Qed.
Print Assumptions C97_notify_one.

(** One waiting thread: it wakes only if a notification has walked the queue since it entered it: no spurious wake-ups. *)
Theorem C97_no_spurious : forall w all lot addr evs s t s', exec (single w all) lot addr evs s -> step (single w all) lot addr s (t, Awake) s' -> t = w /\ notified w evs.
Proof.
  intros w all lot addr evs s t s' X S. destruct (inv_exec _ _ _ _ _ _ X) as (l & V). inversion S as [s1 t1 l1' sh' p' T E1 E2 E3]; subst.
  inversion T as [| | | | | | | |sx a n0 G0 G1 G2 G3 G4 G5| | | | | | | | | | |]; subst.
  assert (t = w) by (destruct (Nat.eq_dec t w) as [|N]; [assumption|]; pose proof (i_one _ _ _ _ _ _ _ V t N) as A; rewrite <- G3 in A; discriminate). subst t. split; [reflexivity|].
  pose proof (i_w _ _ _ _ _ _ _ V) as W. unfold wok in W. rewrite <- G3 in W. destruct W as (_ & _ & [(_ & Y)|((m & Hm & Sm) & _)]); [exact Y|].
  apply ld_ret in G0. unfold cell in Hm. congruence.
Qed.
Print Assumptions C97_no_spurious.

(** One waiting thread: nothing is undefined as long as only notify_one is used, or the thread has entered the queue at most once. *)
Theorem C97_defined_partial : forall w all lot addr evs s, exec (single w all) lot addr evs s -> all = false \/ enqueues evs <= 1 -> no_undefined (single w all) lot addr s.
Proof.
  intros w all lot addr evs s X H t U. destruct (inv_exec _ _ _ _ _ _ X) as (l & V). pose proof V as [C N O Z E A L W].
  assert (HO : holds (que (sh s)) l) by (split; [exact C|]; split; [exact N|]; assert (0 <= pre (thr s w))%Z by (unfold pre; destruct (thr s w); lia); lia).
  unfold undefined in U. destruct (thr s t) as [| | | | | |a| | | | | |h b] eqn:F; try contradiction.
  - destruct U as [U|(U & _)]; [|discriminate]. assert (t = w) by (destruct (Nat.eq_dec t w) as [|Y]; [assumption|]; specialize (A t Y); rewrite F in A; discriminate). subst t.
    unfold wok in W. rewrite F in W. destruct W as (_ & _ & [((m & Hm & _) & _)|((m & Hm & _) & _)]); unfold ld in U; unfold cell in Hm; rewrite Hm in U; discriminate.
  - destruct l as [|a l]; [rewrite (walk_nil lot addr b _ HO) in U; discriminate|]. destruct b.
    + destruct H as [-> |H]; [pose proof (no_alls _ _ _ _ _ X eq_refl t) as Y; rewrite F in Y; discriminate|]. cbn in E. assert (l = []) by (destruct l; [reflexivity|cbn in E; lia]). subst l.
      exact (walk_all_last lot addr _ a HO O U).
    + destruct (walk_one lot addr _ a l HO O) as (q' & E' & _). congruence.
Qed.
Print Assumptions C97_defined_partial.

(** FINDINGS. *)
Definition reaches (md : mode) (s : state) : Prop := exists evs, exec md 0 16 evs s.
Lemma reach_step md s t l sh' p' : reaches md s -> tstep md 0 16 t (sh s) (thr s t) l sh' p' -> reaches md (mkState sh' (set (thr s) t p')).
Proof. intros (evs & X) T. exists (evs ++ [(t, l)]). econstructor; [exact X|]. now constructor. Qed.
Ltac go R t c := let T := fresh "T" in let R' := fresh "R" in
  match type of R with reaches ?md ?s => eassert (T : tstep md 0 16 t (sh s) (thr s t) _ _ _) by (eapply c; vm_compute; try reflexivity; try discriminate); pose proof (reach_step md s t _ _ _ R T) as R'; clear T R; rename R' into R end;
  match type of R with reaches ?md (mkState ?h (set ?g ?u ?p)) =>
    let h' := eval vm_compute in h in let g' := eval cbn [thr] in g in let p' := eval vm_compute in p in change (reaches md (mkState h' (set g' u p'))) in R end.
Ltac enter R t := go R t s_lock; go R t s_wait; go R t s_w1; go R t s_w2; go R t s_w2a; go R t s_w2b; go R t s_w3.

(** The same thread waits twice: the second notify_all reads a freed node (the node of the first wait was never removed). *)
Theorem C97_notify_all_refuted : exists s, reaches (single 0 true) s /\ thr s 1 = N4 false true /\ undefined (single 0 true) 0 16 (sh s) (thr s 1).
Proof.
  assert (R : reaches (single 0 true) init) by (exists []; constructor).
  enter R 0. go R 1 s_notify_all. go R 1 s_n1. go R 1 s_ns. go R 1 s_n2. go R 1 s_n3. go R 1 s_n4. go R 0 s_w4. go R 0 s_w5. go R 0 s_unlock.
  enter R 0. go R 1 s_notify_all. go R 1 s_n1. go R 1 s_ns. go R 1 s_n2. go R 1 s_n3.
  eexists. split; [exact R|]. split; [reflexivity|]. vm_compute. reflexivity.
Qed.
Print Assumptions C97_notify_all_refuted.
(** Two threads wait: one notify_one frees the node of the one it does not wake, which then reads it. *)
Theorem C97_two_waiters_refuted : exists s md, reaches md s /\ alls md = false /\ timed md = false /\ (exists a, thr s 0 = W4 a) /\ undefined md 0 16 (sh s) (thr s 0).
Proof.
  set (md := {| waits := fun _ => true; alls := false; timed := false |}). assert (R : reaches md init) by (exists []; constructor).
  enter R 0. enter R 1. go R 2 s_notify_one. go R 2 s_n1. go R 2 s_n2. go R 2 s_n3. go R 2 s_n4.
  eexists. exists md. split; [exact R|]. split; [reflexivity|]. split; [reflexivity|]. split; [eexists; reflexivity|]. vm_compute. left. reflexivity.
Qed.
Print Assumptions C97_two_waiters_refuted.
(** A single wait_for that times out deletes its node and then reads it. *)
Theorem C97_timeout_refuted : exists s md, reaches md s /\ waits md = Nat.eqb 0 /\ (exists a, thr s 0 = W4 a /\ timeout (que (sh s)) a = Ub) /\ undefined md 0 16 (sh s) (thr s 0).
Proof.
  set (md := {| waits := Nat.eqb 0; alls := false; timed := true |}). assert (R : reaches md init) by (exists []; constructor).
  enter R 0. eexists. exists md. split; [exact R|]. split; [reflexivity|]. split; [eexists; split; [reflexivity|vm_compute; reflexivity]|]. vm_compute. right. split; reflexivity.
Qed.
Print Assumptions C97_timeout_refuted.

(** Concrete cases: a thread waits twice and is notified twice; a notification that returns. *)
Example C97_ex : exists s s', reaches (single 0 false) s /\ asleep s 0 /\ step (single 0 false) 0 16 s (1, Walked) s' /\ ~ asleep s' 0 /\ (exists s2, step (single 0 false) 0 16 s' (0, Awake) s2).
Proof.
  assert (R : reaches (single 0 false) init) by (exists []; constructor).
  enter R 0. go R 1 s_notify_one. go R 1 s_n1. go R 1 s_n2. go R 1 s_n3. go R 1 s_n4. go R 0 s_w4. go R 0 s_w5. go R 0 s_unlock.
  enter R 0. go R 1 s_notify_one. go R 1 s_n1. go R 1 s_n2. go R 1 s_n3.
  match type of R with reaches _ ?s => set (s0 := s) in * end.
  assert (T : exists q', walk 0 16 false (que (sh s0)) = Ret (q', tt)) by (eexists; vm_compute; reflexivity). destruct T as (q' & T).
  assert (S : step (single 0 false) 0 16 s0 (1, Walked) (mkState (mkS (seq (sh s0)) (mtx (sh s0)) q' None) (set (thr s0) 1 (Out false)))) by (constructor; apply s_n4; exact T).
  exists s0. eexists. split; [exact R|]. split; [exists 1; split; [right; reflexivity|]|split; [exact S|]].
  - intros (n & Hn & Sn). vm_compute in Hn. injection Hn as <-. discriminate.
  - split; [destruct R as (evs & R); eapply C97_notify_one; [exact R|exact S|now left]|]. vm_compute in T. injection T as <-. eexists. constructor. cbn. eapply (s_w4 _ _ _ _ _ 1); vm_compute; reflexivity.
Qed.
