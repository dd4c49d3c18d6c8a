(** * C115: the background job queue IO *)
From Coq Require Import Arith List Lia Bool.
From Verif Require Import IoModel IoSpec IoProofs.
Import ListNotations.

(** Jobs are run one at a time, in the order of insertion, each once: at any moment those pushed are those finished, the one being run and
    those waiting, in that order. *)
Theorem C115_order spur s : reachable spur s -> pushed s = finished s ++ current s ++ jobs s.
Proof. intros R. apply (reach_inv _ _ R). Qed.

(** No wake-up is lost: the worker sleeps over a waiting job only while the insertion that will wake it has still to notify. *)
Theorem C115_wakeup spur s :
  reachable spur s -> worker s = Asleep -> jobs s <> [] ->
  pending s > 0 /\ exists s', step spur s Notify = Some s' /\ worker s' = Test1 /\ jobs s' = jobs s.
Proof.
  intros R W J. destruct (reach_inv _ _ R) as (_ & _ & _ & D & _). specialize (D W J). split; auto.
  cbn. destruct (pending s); [lia|]. eexists. split; [reflexivity|]. cbn. rewrite W. auto.
Qed.

(** A waiting job is run by the worker alone once it is awake: at most five of its steps lead to the end of a job. *)
Theorem C115_progress spur s :
  reachable spur s -> worker s <> Asleep -> worker s <> Exited -> running s = true -> jobs s <> [] ->
  exists n s', n <= 5 /\ run spur s (repeat Worker n) = Some s' /\ length (finished s') = S (length (finished s)).
Proof.
  intros R A B C D. destruct (reach_inv _ _ R) as (_ & _ & _ & _ & _ & _ & _ & _ & FL). clear R. destruct s as [r q w d f n p fin ask la]. cbn in A, B, C, D, FL. subst r. destruct q as [|j q]; [congruence|].
  destruct w; try congruence; try discriminate (FL eq_refl);
    [exists 5|exists 4|exists 3|exists 2|exists 1]; eexists; (split; [lia|]); (split; [reflexivity|]); cbn; rewrite app_length; cbn; lia.
Qed.

(** Once the destructor has returned every job has been run, unless a job inserted another during the destruction. *)
Theorem C115_destroyed_partial spur s : reachable spur s -> dtor s = DDone -> late s = false -> finished s = pushed s.
Proof.
  intros R D L. destruct (reach_inv _ _ R) as (A & _ & _ & _ & F & _ & _ & K & _).
  rewrite A, (F L) by auto. unfold current. rewrite (K D), !app_nil_r. reflexivity.
Qed.

(** When flush has returned, the jobs inserted before its call are finished, but for the one that may still be running. *)
Theorem C115_flush_partial spur s :
  reachable spur s -> flush s = FReturned -> prefix (asked s) (finished s ++ current s) /\ length (asked s) <= S (length (finished s)).
Proof.
  intros R D. destruct (reach_inv _ _ R) as (_ & _ & C & _). specialize (C D). split; auto.
  destruct C as (c & Q). apply (f_equal (@length nat)) in Q. rewrite !app_length in Q.
  assert (length (current s) <= 1) by (unfold current; destruct (worker s); cbn; lia). lia.
Qed.

(** The destructor ends if, when it comes to the join, the worker neither sleeps nor has decided to: at most four steps of the worker are left. *)
Theorem C115_joins_partial spur s :
  reachable spur s -> dtor s = DJoin -> worker s <> Asleep -> worker s <> Test2 -> worker s <> Fall ->
  exists n s', n <= 4 /\ run spur s (repeat Worker n ++ [Dtor]) = Some s' /\ dtor s' = DDone.
Proof.
  intros (l & R) D A B B'. assert (S : stopped s) by (eapply stopped_run; [|exact R]; intros [|]; discriminate).
  specialize (S (or_introl D)). destruct s as [r q w d f n p fin ask la]. cbn in *. subst.
  destruct w; try congruence.
  - exists 1. eexists. split; [lia|]. split; reflexivity.
  - destruct q; [exists 3|exists 4]; eexists; (split; [lia|]); split; reflexivity.
  - destruct q; [exists 2|exists 3]; eexists; (split; [lia|]); split; reflexivity.
  - exists 2. eexists. split; [lia|]. split; reflexivity.
  - exists 0. eexists. split; [lia|]. split; reflexivity.
Qed.

(** Not all of them: flush can return before a job inserted earlier by its caller has been finished. *)
Theorem C115_flush_refuted :
  exists s, reachable false s /\ flush s = FReturned /\ In 7 (asked s) /\ ~ In 7 (finished s).
Proof.
  eexists. split; [exists [Push 7; Notify; FlushCall; Worker; Worker; Worker; Worker; Flush]; vm_compute; reflexivity|]. cbn. tauto.
Qed.

(** Destruction does not end: once the worker sleeps with nothing to do, whatever happens after the call of the destructor it never returns,
    unless the condition variable happens to wake up by itself. *)
Theorem C115_join_refuted s s1 l s' :
  reachable false s -> worker s = Asleep -> jobs s = [] -> step false s DtorCall = Some s1 -> run false s1 l = Some s' ->
  dtor s' <> DDone /\ worker s' = Asleep.
Proof.
  intros _ W J S R. assert (T : trap s1).
  { cbn in S. destruct s as [r q w d f n p fin ask la]. cbn in *. subst. destruct d, f, n; try discriminate; injection S as <-; unfold trap; cbn; auto 10. }
  destruct (trap_run _ _ _ T R) as (A & _ & _ & _ & E). split; auto. destruct E as [->|[->| ->]]; discriminate.
Qed.
(** Such an execution, up to the deadlock, after a job has been inserted and run. *)
Theorem C115_deadlock_refuted :
  exists s, reachable false s /\ stuck s /\ dtor s = DJoin /\ pushed s = [7] /\ finished s = [7].
Proof.
  eexists. split.
  - exists ([Push 7; Notify] ++ repeat Worker 9 ++ [DtorCall; Dtor; Dtor]). vm_compute. reflexivity.
  - split; [|cbn; auto]. intros []; reflexivity.
Qed.

(** A job inserted by a running job can be lost when the destructor runs at the same time. *)
Theorem C115_late_refuted :
  exists s, reachable false s /\ dtor s = DDone /\ pushed s = [7; 8] /\ finished s = [7].
Proof.
  eexists. split; [exists ([Push 7; Notify] ++ repeat Worker 4 ++ [DtorCall; Dtor; Push 8; Notify; Dtor; Worker; Worker; Dtor]); vm_compute; reflexivity|].
  cbn. auto.
Qed.

(** bRunning is neither atomic nor guarded: the destructor can be about to write it while the worker is about to read it. *)
Theorem C115_race_refuted :
  exists s, reachable false s /\ dtor s = DStop /\ worker s = Loop /\
    (exists a, step false s Worker = Some a /\ worker a = Test1) /\
    (exists a b, step false s Dtor = Some a /\ step false a Worker = Some b /\ worker b = Exited).
Proof.
  eexists. split; [exists [DtorCall; Dtor]; vm_compute; reflexivity|]. cbn. split; [reflexivity|]. split; [reflexivity|].
  split; [eexists|do 2 eexists]; repeat (split; [reflexivity|]); reflexivity.
Qed.

(** Two insertions, a flush that wakes the worker, a job inserting another, a flush that returns, and a destruction that ends because the worker
    is still at work. *)
Example C115_ex :
  match run false init ([Worker; Worker; Worker; Worker; Push 7; FlushCall; Flush; Flush; Push 8; Notify; Notify] ++ repeat Worker 3 ++ [Push 9; Notify; Worker]) with
  | Some s => worker s = Loop /\ finished s = [7] /\ jobs s = [8; 9] /\ asked s = [7] /\ flush s = FTest
  | None => False
  end.
Proof. vm_compute. repeat split. Qed.
Example C115_ex_destroyed :
  match run false init ([Push 7; Push 8; Notify; Notify; FlushCall] ++ repeat Worker 9 ++ [Flush; DtorCall; Dtor; Dtor] ++ repeat Worker 2 ++ [Dtor]) with
  | Some s => dtor s = DDone /\ flush s = FReturned /\ late s = false /\ finished s = [7; 8]
  | None => False
  end.
Proof. vm_compute. repeat split. Qed.
(** The hypotheses of [C115_wakeup] and [C115_join_refuted]. *)
Example C115_ex_wakeup :
  match run false init [Worker; Worker; Worker; Worker; Push 7] with Some s => worker s = Asleep /\ jobs s = [7] /\ pending s = 1 | None => False end.
Proof. vm_compute. repeat split. Qed.
Example C115_ex_join :
  match run false init [Worker; Worker; Worker; Worker] with
  | Some s => worker s = Asleep /\ jobs s = [] /\ exists s1, step false s DtorCall = Some s1
  | None => False
  end.
Proof. vm_compute. repeat split. eexists. reflexivity. Qed.

Print Assumptions C115_order.
Print Assumptions C115_wakeup.
Print Assumptions C115_progress.
Print Assumptions C115_destroyed_partial.
Print Assumptions C115_joins_partial.
Print Assumptions C115_flush_partial.
Print Assumptions C115_flush_refuted.
Print Assumptions C115_join_refuted.
Print Assumptions C115_deadlock_refuted.
Print Assumptions C115_late_refuted.
Print Assumptions C115_race_refuted.
