(** C43: union_find, for every undirected graph on n vertices given by a compressed matrix, every skip predicate, every interleaving. *)
From Verif Require Import Prelude UfModel UfSpec UfProofs UfProofs2.

(** When all threads have finished: following the parents from a vertex ends in the least vertex of its component, so two vertices lead to
    the same representative iff they are connected. *)
Theorem C43_union_find_components : forall (A : Type) n ptrs inds (vals : list A) skip, undirected n ptrs inds vals skip ->
  forall k s, steps k (init_state ptrs inds vals skip n) s -> final s ->
  (forall v, v < n -> exists r, chases (fst s) v r /\ connected (graph_edge n ptrs inds vals skip) v r /\
     forall u, connected (graph_edge n ptrs inds vals skip) v u -> r <= u) /\
  (forall u v ru rv, u < n -> v < n -> chases (fst s) u ru -> chases (fst s) v rv -> (ru = rv <-> connected (graph_edge n ptrs inds vals skip) u v)).
Proof. exact @final_components. Qed.
Print Assumptions C43_union_find_components.
(** a run that is not finished can go on (no access outside the array, no waiting) ... *)
Theorem C43_union_find_progress : forall (A : Type) n ptrs inds (vals : list A) skip, undirected n ptrs inds vals skip ->
  forall k s, steps k (init_state ptrs inds vals skip n) s -> ~ final s -> exists s', step s s'.
Proof. exact @run_progress. Qed.
Print Assumptions C43_union_find_progress.
(** ... and no run is longer than this bound *)
Theorem C43_union_find_terminates : forall (A : Type) n ptrs inds (vals : list A) skip, undirected n ptrs inds vals skip ->
  forall k s, steps k (init_state ptrs inds vals skip n) s ->
  k <= (4 * n + 8) * (n + list_sum (map (fun v => length (row ptrs inds vals skip v)) (seq 0 n))).
Proof. exact @run_bound. Qed.
Print Assumptions C43_union_find_terminates.

(** The array itself does not hold the representatives: on the path 1-2-3-0, run one vertex after the other, fas[2] = 1 and fas[3] = 0
    although 2 and 3 are adjacent. *)
Definition ex_ptrs := [0; 1; 2; 4; 6].
Definition ex_inds := [3; 2; 1; 3; 0; 2].
Definition ex_vals := [tt; tt; tt; tt; tt; tt].
Definition ex_init := init_state ex_ptrs ex_inds ex_vals (fun _ => false) 4.
Lemma ex_undirected : undirected 4 ex_ptrs ex_inds ex_vals (fun _ => false).
Proof.
  intros v u [Hv (k & x & Hk & E1 & _)].
  assert (C : (v = 0 /\ u = 3) \/ (v = 1 /\ u = 2) \/ (v = 2 /\ u = 1) \/ (v = 2 /\ u = 3) \/ (v = 3 /\ u = 0) \/ (v = 3 /\ u = 2)).
  { destruct v as [|[|[|[|v]]]]; [| | | |lia]; cbn in Hk; destruct k as [|[|[|[|[|[|k]]]]]]; cbn in E1; try lia; try discriminate; injection E1 as <-; lia. }
  destruct C as [[-> ->]|[[-> ->]|[[-> ->]|[[-> ->]|[[-> ->]|[-> ->]]]]]]; (split; [lia|]); unfold stored_edge; cbn;
    [exists 4|exists 2|exists 1|exists 5|exists 0|exists 3]; exists tt; repeat split; lia.
Qed.
Theorem C43_array_holds_labels_refuted : exists k s, steps k ex_init s /\ final s /\
  graph_edge 4 ex_ptrs ex_inds ex_vals (fun _ => false) 3 2 /\ nth_error (fst s) 3 = Some 0 /\ nth_error (fst s) 2 = Some 1.
Proof.
  eexists _, _. split; [apply (sched_sound [0; 1; 2; 2; 2; 2; 3; 3; 3; 3; 3; 3; 3]); vm_compute; reflexivity|].
  split; [intros p Hp; cbn in Hp; intuition congruence|]. split; [|split; reflexivity].
  split; [lia|]. exists 5, tt. cbn. repeat split; lia.
Qed.
Print Assumptions C43_array_holds_labels_refuted.

(** an interleaved run of the same graph reaches a final state *)
Example C43_case : exists f, steps 13 ex_init (f, [Done; Done; Done; Done]) /\ nth_error f 1 = Some 0.
Proof. eexists. split; [apply (sched_sound [3; 2; 3; 2; 3; 2; 1; 0; 3; 3; 2; 3; 3]); vm_compute; reflexivity|reflexivity]. Qed.
