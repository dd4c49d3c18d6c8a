(** C46: parking lot.  The full claim (unpark removes exactly what it signals) is false of the code: unpark advances its cursor before
    erasing, so it erases the successor of the waiter it wakes.  Proved: the exact effect on every queue, that the claim holds while at
    most one thread at a time is inside parkFor, and the general refutations. *)
From Verif Require Import Prelude HashModel ParkModel ParkSpec ParkProofs ParkProofs2.

(** Every history of operations that does not run into undefined behaviour leaves a well-formed queue (acyclic, allocated nodes, no more
    waiters than _count, so that the early return on _count = 0 never misses one), and every loop terminates. *)
Theorem C46_queue_well_formed : forall h, run h empty_queue <> Oof /\ forall q, run h empty_queue = Ret q -> exists l, holds q l.
Proof.
  intros h. assert (H0 : holds empty_queue []) by (split; [constructor|split; [constructor|cbn; lia]]).
  pose proof (run_wf h empty_queue [] H0) as X. destruct (run h empty_queue) as [q| |] eqn:E.
  - split; [discriminate|]. intros q' [= <-]. exact X.
  - split; [discriminate|]. intros q' [=].
  - destruct X.
Qed.
Print Assumptions C46_queue_well_formed.

(** While at most one thread at a time is inside parkFor, on any mixture of addresses and lots: no undefined behaviour, the parked thread
    sleeps until the first wake-one for its own (lot, address), and then finds its node signalled. *)
Theorem C46_one_waiter_at_a_time_partial : forall h n ph, addresses_64 h -> spec_run h (0, Nobody) = Some (n, ph) ->
  exists q, run h empty_queue = Ret q /\
  match ph with Nobody => True | Asleep i lot addr => sleeping q i /\ parked_on q lot addr i | Woken i => signalled q i end.
Proof.
  intros h n ph A E. assert (H0 : holds empty_queue []) by (split; [constructor|split; [constructor|cbn; lia]]).
  destruct (one_run h empty_queue [] 0 Nobody n ph H0 eq_refl I A E) as (q & l & R & _ & P). exists q. split; [exact R|].
  destruct ph as [|i lot addr|i]; [exact I| |].
  - destruct P as (_ & ni & Hi & Si & K & M & _). split; [exists ni; auto|exists ni; auto].
  - exact (proj2 P).
Qed.
Print Assumptions C46_one_waiter_at_a_time_partial.
Definition hist1 : list op :=
  [Park 0 16 1 true; WakeOne 0 392; Park 0 16 1 false; WakeOne 0 16; Resume 0; Park 0 392 1 true; WakeOne 0 16; WakeOne 0 392; Resume 1; Park 0 16 7 true].
Example hist1_meets : addresses_64 hist1 /\ spec_run hist1 (0, Nobody) = Some (3, Asleep 2 0 16) /\
  exists q, run hist1 empty_queue = Ret q /\ holds q [2; 1].
Proof.
  split; [repeat constructor|]. split; [vm_compute; reflexivity|]. eexists. split; [vm_compute; reflexivity|].
  split; [|split; [repeat constructor; cbn; intuition lia|cbn; lia]]. cbn.
  eapply ch_cons; [reflexivity|]. cbn. eapply ch_cons; [reflexivity|]. cbn. constructor.
Qed.

(** A wake-one on an address nobody in the queue waits for changes nothing. *)
Theorem C46_wake_nobody : forall St (func : St -> N -> St * control) q l lot addr s, holds q l -> (forall a, In a l -> ~ parked_on q lot addr a) ->
  unpark func lot addr q s = Ret (q, s).
Proof. intros. exact (unpark_none func lot addr q l s H H0). Qed.
Print Assumptions C46_wake_nobody.

(** Exact effect of a wake-one (Mutex::unlock, notify_one) on any queue: the first matching waiter is signalled but stays queued; the
    waiter behind it, whoever it is, is removed and freed; nobody else is affected. *)
Theorem C46_wake_one_effect : forall q pre a post lot addr,
  holds q (pre ++ a :: post) -> (forall b, In b pre -> ~ parked_on q lot addr b) -> parked_on q lot addr a ->
  exists q', unpark wake_one lot addr q tt = Ret (q', tt) /\ holds q' (pre ++ a :: tl post) /\ signalled q' a /\
    (forall b, hd_error post = Some b -> freed q' b) /\ (forall c, c <> a -> hd_error post <> Some c -> nth_error (qmem q') c = nth_error (qmem q) c).
Proof.
  intros q pre a post lot addr H X (n & Ha & K & M). pose proof (unpark_first wake_one lot addr q pre a post tt n H X Ha K M) as (f & _ & Eu).
  rewrite Eu. cbn [wake_one removes breaks].
  destruct (remove_wake q _ pre a post n H eq_refl Ha) as (q' & E1 & H1 & C1 & Q1 & L1 & (n' & Ha' & S' & _) & F1 & O1). rewrite E1. cbn [rbind].
  exists q'. split; [reflexivity|]. split; [exact H1|]. split; [exists n'; auto|]. split; assumption.
Qed.
Print Assumptions C46_wake_one_effect.

(** FINDING: with a second waiter behind the one it wakes, wake-one frees the sleeping second waiter without signalling it and leaves the
    signalled one queued. *)
Theorem C46_removes_what_it_signals_refuted : forall q pre a b post lot addr,
  holds q (pre ++ a :: b :: post) -> (forall c, In c pre -> ~ parked_on q lot addr c) -> parked_on q lot addr a -> sleeping q b ->
  exists q', unpark wake_one lot addr q tt = Ret (q', tt) /\ holds q' (pre ++ a :: post) /\ signalled q' a /\ freed q' b.
Proof.
  intros q pre a b post lot addr H X P _. destruct (C46_wake_one_effect q pre a (b :: post) lot addr H X P) as (q' & E & H' & Sg & F & _).
  exists q'. split; [exact E|]. split; [exact H'|]. split; [exact Sg|]. apply F. reflexivity.
Qed.
Print Assumptions C46_removes_what_it_signals_refuted.
(** two threads sleep on one address; the second is woken by one wake-one, the first then touches its freed node *)
Theorem C46_second_sleeper_refuted : exists q, run [Park 0 16 1 true; Park 0 16 1 true; WakeOne 0 16] empty_queue = Ret q /\
  signalled q 1 /\ freed q 0 /\ run [Park 0 16 1 true; Park 0 16 1 true; WakeOne 0 16; Resume 0] empty_queue = Ub.
Proof.
  eexists. split; [vm_compute; reflexivity|]. split; [eexists; split; [reflexivity|reflexivity]|]. split; [reflexivity|vm_compute; reflexivity].
Qed.
Print Assumptions C46_second_sleeper_refuted.
(** the same happens across unrelated addresses that select the same queue *)
Theorem C46_unrelated_address_refuted : queue_index (twang_mix64 16) = queue_index (twang_mix64 392) /\
  run [Park 0 392 1 true; Park 0 16 1 true; WakeOne 0 16; Resume 0] empty_queue = Ub.
Proof. split; vm_compute; reflexivity. Qed.
Print Assumptions C46_unrelated_address_refuted.

(** FINDING: waking all (notify_all) on any queue whose first matching waiter is not last reads the node it has just freed. *)
Theorem C46_wake_all_refuted : forall q pre a b post lot addr,
  holds q (pre ++ a :: b :: post) -> (forall c, In c pre -> ~ parked_on q lot addr c) -> parked_on q lot addr a ->
  unpark wake_all lot addr q tt = Ub.
Proof.
  intros q pre a b post lot addr H X (n & Ha & K & M). destruct (unpark_first wake_all lot addr q pre a (b :: post) tt n H X Ha K M) as (f & Lf & Eu).
  rewrite Eu. cbn [wake_all removes breaks].
  destruct (remove_wake q _ pre a (b :: post) n H eq_refl Ha) as (q' & E1 & H1 & _ & _ & _ & _ & F1 & _). rewrite E1. cbn [rbind].
  destruct f as [|f]; [cbn in Lf; lia|]. cbn [hd_error unpark_loop]. rewrite (freed_ub q' b) by (apply F1; reflexivity). reflexivity.
Qed.
Print Assumptions C46_wake_all_refuted.
(** waking all works when the first matching waiter is the last of the queue *)
Theorem C46_wake_all_last_partial : forall q pre a lot addr,
  holds q (pre ++ [a]) -> (forall c, In c pre -> ~ parked_on q lot addr c) -> parked_on q lot addr a ->
  exists q', unpark wake_all lot addr q tt = Ret (q', tt) /\ holds q' (pre ++ [a]) /\ signalled q' a /\ forall c, c <> a -> nth_error (qmem q') c = nth_error (qmem q) c.
Proof.
  intros q pre a lot addr H X (n & Ha & K & M). destruct (unpark_first wake_all lot addr q pre a [] tt n H X Ha K M) as (f & Lf & Eu).
  rewrite Eu. cbn [wake_all removes breaks].
  destruct (remove_wake q _ pre a [] n H eq_refl Ha) as (q' & E1 & H1 & _ & _ & _ & (n' & Ha' & S' & _) & _ & O1). rewrite E1. cbn [rbind].
  exists q'. split; [destruct f; reflexivity|]. split; [exact H1|]. split; [exists n'; auto|]. intros c Nc. apply O1; [exact Nc|discriminate].
Qed.
Print Assumptions C46_wake_all_last_partial.

(** A timed-out waiter that is not at the head of the queue removes exactly itself. *)
Theorem C46_timeout_removes_itself_partial : forall q h pre a post, holds q (h :: pre ++ a :: post) -> sleeping q a ->
  exists q', timeout q a = Ret (q', true) /\ holds q' (h :: pre ++ post) /\ freed q' a /\ forall c, In c (h :: pre ++ post) -> same_waiter q q' c.
Proof.
  intros q h pre a post H (n & Ha & Sa). unfold timeout. rewrite (proj2 (ld_ret _ _ _) Ha). cbn [rbind]. rewrite Sa.
  destruct (erase_inner q h pre a post H) as (q' & E & H' & F & L & S). rewrite E. cbn [rbind]. exists q'. split; [reflexivity|].
  split; [exact H'|]. split; [exact F|]. intros c I. destruct H as (C & N & _).
  assert (Nca : c <> a).
  { intros ->. change (h :: pre ++ a :: post) with ((h :: pre) ++ a :: post) in N. apply NoDup_remove_2 in N. exact (N I). }
  destruct (chain_cell _ _ _ C c) as [nc Hc].
  { destruct I as [<-|I]; [left; reflexivity|right]. apply in_app_or in I as [I|I]; apply in_or_app; [left|right; right]; exact I. }
  destruct (S c nc Nca Hc) as (n' & Hc' & K1 & K2 & K3 & K4). exists nc, n'. repeat split; auto.
Qed.
Print Assumptions C46_timeout_removes_itself_partial.
(** FINDING: the waiter at the head (the most recent one) reads its node after deleting it when it times out. *)
Theorem C46_timeout_refuted : forall q a l, holds q (a :: l) -> sleeping q a -> timeout q a = Ub.
Proof.
  intros q a l (C & _) (n & Ha & Sa). unfold timeout. rewrite (proj2 (ld_ret _ _ _) Ha). cbn [rbind]. rewrite Sa.
  unfold erase. rewrite (chain_head _ _ _ C). cbn. rewrite Nat.eqb_refl. reflexivity.
Qed.
Print Assumptions C46_timeout_refuted.

(** A waiter whose wait times out reports Timeout exactly if nobody has signalled it; if somebody has, it leaves the queue alone and
    reports being woken. *)
Theorem C46_timeout_result : forall q a,
  (signalled q a -> timeout q a = Ret (q, false)) /\
  (forall q' b, timeout q a = Ret (q', b) -> b = true <-> sleeping q a).
Proof.
  intros q a. split.
  - intros (n & Ha & Sa). unfold timeout. rewrite (proj2 (ld_ret _ _ _) Ha). cbn [rbind]. rewrite Sa. reflexivity.
  - intros q' b. unfold timeout. destruct (ld (qmem q) a) as [n| |] eqn:E; cbn [rbind]; try discriminate.
    apply ld_ret in E. destruct (nsig n) eqn:Sn.
    + intros [= <- <-]. split; [discriminate|]. intros (n' & Hn & Sn'). unfold cell in Hn. congruence.
    + destruct (erase q (Some a)) as [q1| |]; cbn [rbind]; try discriminate. intros [= <- <-]. split; [|reflexivity].
      intros _. exists n. split; [exact E|exact Sn].
Qed.
Print Assumptions C46_timeout_result.

(** futex wake on a queue holding one waiter for the address: woken, and 1 returned, exactly when the masks intersect *)
Theorem C46_futex_wake_single_partial : forall q a lot addr n count mask, holds q [a] -> cell q a n -> nkey n = twang_mix64 addr -> nlot n = lot -> (1 <= count)%Z ->
  (N.land (ndata n) mask <> 0%N -> exists q', futex_wake lot addr count mask q = Ret (q', 1%Z) /\ signalled q' a) /\
  (N.land (ndata n) mask = 0%N -> futex_wake lot addr count mask q = Ret (q, 0%Z)).
Proof.
  intros q a lot addr n count mask H Ha K M Hc.
  destruct (unpark_first (wake_n mask) lot addr q [] a [] (count, 0%Z) n H ltac:(intros b []) Ha K M) as (f & Lf & Eu).
  unfold futex_wake. rewrite Eu. unfold wake_n. cbn [fst snd]. split; intros Hm.
  - destruct (N.eqb_spec (N.land (ndata n) mask) 0) as [|_]; [contradiction|].
    destruct (remove_wake q _ [] a [] n H eq_refl Ha) as (q' & E1 & _ & _ & _ & _ & (n' & Ha' & S' & _) & _).
    exists q'. split; [|exists n'; auto].
    destruct (0 <? count - 1)%Z; cbn [removes breaks]; rewrite E1; cbn [rbind]; [destruct f|]; reflexivity.
  - rewrite Hm. cbn [N.eqb removes breaks rbind]. destruct f; reflexivity.
Qed.
Print Assumptions C46_futex_wake_single_partial.
(** FINDING: asked to wake at most zero threads, it wakes one. *)
Theorem C46_futex_wake_zero_refuted : exists q q', run [Park 0 16 1 true] empty_queue = Ret q /\ sleeping q 0 /\
  futex_wake 0 16 0 0xffffffff q = Ret (q', 1%Z) /\ signalled q' 0.
Proof.
  do 2 eexists. split; [vm_compute; reflexivity|]. split; [eexists; split; reflexivity|]. split; [vm_compute; reflexivity|]. eexists; split; reflexivity.
Qed.
Print Assumptions C46_futex_wake_zero_refuted.

(** the hypotheses of the queue theorems: three waiters, two addresses, well-formed and reachable *)
Example three_waiters : exists q, run [Park 0 16 1 true; Park 0 16 1 true; Park 0 392 1 true] empty_queue = Ret q /\
  holds q ([2] ++ 1 :: [0]) /\ (forall b, In b [2] -> ~ parked_on q 0 16 b) /\ parked_on q 0 16 1 /\ sleeping q 0 /\ sleeping q 2.
Proof.
  eexists. split; [vm_compute; reflexivity|].
  split; [split; [|split; [repeat constructor; cbn; intuition lia|cbn; lia]]|].
  - cbn. repeat (eapply ch_cons; [reflexivity|]; cbn). constructor.
  - split; [intros b [<-|[]] (n & Hn & K & _); vm_compute in Hn; injection Hn as <-; vm_compute in K; discriminate|].
    split; [eexists; repeat split|]. split; eexists; split; reflexivity.
Qed.
