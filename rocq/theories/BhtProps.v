(** C27, C28, C29: the bucketed hash table under any schedule. *)
From Verif Require Import Prelude BhtModel BhtSpec BhtProofs5 BhtProofs4.
Local Open Scope nat_scope.

(** C27, liveness and safety: at every point of every execution of parallel insert calls on a reachable table, no access is out of
    bounds, every thread that has work left can take a step, and the execution has at most (9 (B+1) + 7) steps per call: insertion
    is wait-free. *)
Theorem C27_insertion_is_safe_and_wait_free : forall (K : Type) keq (sent : K) h B W, 3 <= B -> (4 <= W)%Z ->
  forall t progs n s, reach keq sent h B W t -> Forall (Forall (fun k => k <> sent)) progs ->
  steps keq sent h B W n (start t (map (map plain) progs)) s ->
  ~ crashes keq sent h B W s /\ n <= (9 * (B + 1) + 7) * length (concat progs)
  /\ (forall th, In th (threads s) -> cur th <> None \/ todo th <> [] -> exists t' th' ret, thread_step keq sent h B W (tab s) th = Run t' th' ret).
Proof. exact @run_safe. Qed.
Print Assumptions C27_insertion_is_safe_and_wait_free.

(** C27, result: when all calls have returned, each call has returned once; the dictionary has grown by some keys [new], all of them
    asked for; no index is handed out twice; a call that returned -1 finds its key in the table, a call that returned r >= 0 has its key
    at index r, one of the new indices; a failure means: no buckets, or the flag _buildSuccess is cleared and the three buckets are full
    or the index of the key is within 20 of the capacity.  If no call failed, every key asked for is in the table and the indices handed
    out are exactly those of the new keys, each once. *)
Theorem C27_insertion_numbers_each_key_once : forall (K : Type) keq (sent : K) h B W, 3 <= B -> (64 <= W)%Z ->
  forall t ks progs n s, reach keq sent h B W t -> (Z.of_nat (tsize t) <= W)%Z -> dictionary keq sent h B t ks -> Forall (Forall (fun k => k <> sent)) progs ->
  steps keq sent h B W n (start t (map (map plain) progs)) s -> finished s ->
  Permutation (map plain (concat progs)) (map fst (log s)) /\ tsize (tab s) = tsize t /\ exists new, dictionary keq sent h B (tab s) (ks ++ new)
  /\ (forall k, In k new -> In k (concat progs))
  /\ NoDup (handed (log s))
  /\ (forall o r, In (o, r) (log s) ->
        (r = (-1)%Z /\ In (okey o) (ks ++ new))
        \/ ((Z.of_nat (length ks) <= r)%Z /\ numbered (ks ++ new) (okey o) r)
        \/ (r = failure W /\ (tsize t = 0 \/ (succ (tab s) = false /\ (buckets_full sent h B (tab s) (okey o)
              \/ 20 <= tsize t /\ exists i, numbered (ks ++ new) (okey o) i /\ (Z.of_nat (tsize t) - 20 <= i)%Z)))))
  /\ (no_failure W (log s) -> (forall k, In k (concat progs) -> In k (ks ++ new)) /\ Permutation (handed (log s)) (map Z.of_nat (seq (length ks) (length new)))).
Proof. exact @run_final. Qed.
Print Assumptions C27_insertion_numbers_each_key_once.

(** C28: every reachable table is the dictionary of its active keys: query gives each key its position in activeKeys, and -1 for every
    other key. *)
Lemma reach_dictionary (K : Type) keq (sent : K) h B W : 3 <= B -> (4 <= W)%Z -> forall t, reach keq sent h B W t ->
  dictionary keq sent h B t (firstn (cnt t) (act t)).
Proof. intros HB HW t R. destruct (reach_inv keq sent h B W HB HW t R) as [own I]. eapply quiet_dictionary; eauto. lia. Qed.
Theorem C28_query_is_position_in_active_keys : forall (K : Type) keq (sent : K) h B W, 3 <= B -> (4 <= W)%Z -> forall t, reach keq sent h B W t ->
  dictionary keq sent h B t (firstn (cnt t) (act t)).
Proof. exact reach_dictionary. Qed.
Print Assumptions C28_query_is_position_in_active_keys.

(** C29: resize under any schedule of its parallel loop: safe, bounded, and if no reinsertion returned the failure token the dictionary
    is the same as before.  Partial: without that hypothesis it is false, see below. *)
Theorem C29_resize_keeps_dictionary_partial : forall (K : Type) keq (sent : K) h B W, 3 <= B -> (4 <= W)%Z ->
  forall t ks t' c progs n s, reach keq sent h B W t -> dictionary keq sent h B t ks -> regrown sent B t t' c -> Permutation (concat progs) (reinsert t') ->
  steps keq sent h B W n (start t' progs) s -> ~ crashes keq sent h B W s /\ n <= (9 * (B + 1) + 7) * length ks /\
  (finished s -> no_failure W (log s) -> dictionary keq sent h B (tab s) ks /\ tsize (tab s) = table_size B c).
Proof. exact @run_resize. Qed.
Print Assumptions C29_resize_keeps_dictionary_partial.

(** a concrete run: keys are numbers, the sentinel is 63, buckets of 4 slots, W = 2^32; two threads insert 5,5,8 and 8,5, all of one
    bucket, with a schedule in which both threads see its first slot empty and both attempt to claim it *)
Definition ex_h (it k : nat) : nat := k.
Definition ex_tab (n : nat) : @table nat := {| keys := repeat 63 n; inds := repeat 0%Z n; cnt := 0; act := repeat 0 n; succ := true; tsize := n |}.
Lemma fresh_ex h B e : reach Nat.eq_dec 63 h B (2 ^ 32) (ex_tab (table_size B e)).
Proof. apply (R_new _ _ _ _ _ _ e). unfold fresh, ex_tab. cbn [tsize keys inds act cnt succ]. rewrite !repeat_length. auto 7. Qed.
Example C27_case : exists s, steps Nat.eq_dec 63 ex_h 4 (2 ^ 32) 22 (start (ex_tab 12) (map (map plain) [[5; 5; 8]; [8; 5]])) s
  /\ finished s /\ reach Nat.eq_dec 63 ex_h 4 (2 ^ 32) (ex_tab 12) /\ no_failure (2 ^ 32) (log s)
  /\ map (fun x => (okey (fst x), snd x)) (log s) = [(5, 0%Z); (5, (-1)%Z); (8, 1%Z); (8, (-1)%Z); (5, (-1)%Z)]
  /\ dictionary Nat.eq_dec 63 ex_h 4 (ex_tab 12) [] /\ query Nat.eq_dec ex_h 4 (tab s) 8 = Some 1%Z.
Proof.
  destruct (exec Nat.eq_dec 63 ex_h 4 (2 ^ 32) ([0; 0; 1; 1; 0; 1; 1] ++ repeat 0 12 ++ repeat 1 3) (start (ex_tab 12) (map (map plain) [[5; 5; 8]; [8; 5]]))) as [s|] eqn:E; [|vm_compute in E; discriminate].
  exists s. apply exec_steps in E as St. vm_compute in E. inversion E; subst s. clear E. split; [exact St|].
  split; [intros th [<-|[<-|[]]]; auto|]. split; [apply (fresh_ex ex_h 4 3)|].
  split; [intros o r H; cbn in H; repeat (destruct H as [H|H]; [inversion H; subst; vm_compute; discriminate|]); destruct H|]. split; [reflexivity|]. split; [|reflexivity].
  exact (reach_dictionary nat Nat.eq_dec 63 ex_h 4 (2 ^ 32) ltac:(lia) ltac:(lia) _ (fresh_ex ex_h 4 3)).
Qed.

(** C27 without its hypotheses.  A failed insertion is not always recorded: on a table created with capacity 0 the call returns the
    failure token and _buildSuccess stays set. *)
Theorem C27_failure_unflagged_refuted : exists (t : @table nat) s, reach Nat.eq_dec 63 ex_h 16 (2 ^ 32) t
  /\ steps Nat.eq_dec 63 ex_h 16 (2 ^ 32) 1 (start t (map (map plain) [[5]])) s /\ finished s /\ log s = [(plain 5, failure (2 ^ 32))] /\ succ (tab s) = true.
Proof.
  exists (ex_tab 0). destruct (exec Nat.eq_dec 63 ex_h 16 (2 ^ 32) [0] (start (ex_tab 0) (map (map plain) [[5]]))) as [s|] eqn:E; [|vm_compute in E; discriminate].
  exists s. apply exec_steps in E as St. vm_compute in E. inversion E; subst s. clear E. split; [apply (fresh_ex ex_h 16 0)|]. split; [exact St|].
  split; [intros th [<-|[]]; auto|]. split; reflexivity.
Qed.
Print Assumptions C27_failure_unflagged_refuted.
(** The sentinel key (all bytes 0x3f) cannot be inserted: the call on an empty table answers "exists", and no key is stored. *)
Theorem C27_sentinel_key_refuted : exists (t : @table nat) s, reach Nat.eq_dec 63 ex_h 16 (2 ^ 32) t
  /\ steps Nat.eq_dec 63 ex_h 16 (2 ^ 32) 2 (start t (map (map plain) [[63]])) s /\ finished s /\ log s = [(plain 63, (-1)%Z)] /\ cnt (tab s) = 0 /\ succ (tab s) = true.
Proof.
  exists (ex_tab 16). destruct (exec Nat.eq_dec 63 ex_h 16 (2 ^ 32) [0; 0] (start (ex_tab 16) (map (map plain) [[63]]))) as [s|] eqn:E; [|vm_compute in E; discriminate].
  exists s. apply exec_steps in E as St. vm_compute in E. inversion E; subst s. clear E. split; [apply (fresh_ex ex_h 16 1)|]. split; [exact St|].
  split; [intros th [<-|[]]; auto|]. split; [|split]; reflexivity.
Qed.
Print Assumptions C27_sentinel_key_refuted.

(** C29 without its hypothesis: growing the table from two buckets to three moves six keys that were in two buckets into one, and three
    of them are lost. *)
Definition lose_h (it k : nat) : nat := if k <? 3 then 0 else 3.
Theorem C29_resize_loses_keys_refuted : exists (t t' : @table nat) n s, reach Nat.eq_dec 63 lose_h 4 (2 ^ 32) t /\ dictionary Nat.eq_dec 63 lose_h 4 t [0; 1; 2; 3; 4; 5]
  /\ regrown 63 4 t t' 3 /\ steps Nat.eq_dec 63 lose_h 4 (2 ^ 32) n (start t' [reinsert t']) s /\ finished s /\ query Nat.eq_dec lose_h 4 (tab s) 3 = Some (-1)%Z.
Proof.
  destruct (exec Nat.eq_dec 63 lose_h 4 (2 ^ 32) (repeat 0 42) (start (ex_tab 8) (map (map plain) [[0; 1; 2; 3; 4; 5]]))) as [s|] eqn:E; [|vm_compute in E; discriminate].
  apply exec_steps in E as St. rewrite repeat_length in St.
  assert (R : reach Nat.eq_dec 63 lose_h 4 (2 ^ 32) (tab s)).
  { eapply (R_insert _ _ _ _ _ (ex_tab 8)); [apply (fresh_ex lose_h 4 2)| |exact St|].
    - repeat (constructor; try lia).
    - vm_compute in E. inversion E; subst s. intros th [<-|[]]; auto. }
  assert (D := reach_dictionary nat Nat.eq_dec 63 lose_h 4 (2 ^ 32) ltac:(lia) ltac:(lia) _ R).
  exists (tab s), {| keys := repeat 63 12; inds := repeat 0%Z 12; cnt := cnt (tab s); act := act (tab s) ++ repeat 0 4; succ := true; tsize := 12 |}, 54.
  vm_compute in E. inversion E; subst s. clear E St. cbn [tab] in *.
  match goal with |- context [start ?t [?p]] => destruct (exec Nat.eq_dec 63 lose_h 4 (2 ^ 32) (repeat 0 54) (start t [p])) as [s|] eqn:E; [|vm_compute in E; discriminate] end.
  exists s. apply exec_steps in E as St. vm_compute in E. inversion E; subst s. clear E.
  split; [exact R|]. split; [exact D|]. split; [unfold regrown; cbn; repeat split; lia|]. split; [exact St|].
  split; [intros th [<-|[]]; auto|]. reflexivity.
Qed.
Print Assumptions C29_resize_loses_keys_refuted.
