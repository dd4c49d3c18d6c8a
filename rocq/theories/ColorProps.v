(** C42: graph colouring.  top is numeric_max of the colour type; the bounds on it say that the colour type can hold the colours.
    fuel only has to exceed the number of vertices: both functions terminate. *)
From Verif Require Import Prelude ColorModel ColorSpec ColorProofs ColorProofs2.
Open Scope Z_scope.

(** fast_independent_sets: every graph, every weights: terminates, every vertex gets a colour in 1..count, and the colour `count' is used *)
Theorem C42_fast_terminates_complete : forall adj ws top fuel, length adj = length ws -> symmetric adj ->
  2 * Z.of_nat (length ws) + 2 < top -> (length ws < fuel)%nat ->
  exists cs count, fast_independent_sets adj ws top fuel = Some (cs, count) /\ complete (length ws) cs count /\ (count = 0 \/ In count cs).
Proof. intros adj ws top fuel H1 H2 H3 H4. destruct (fast_ok adj ws top H1 H2 fuel H3 H4) as (cs & k & A & B & _ & C). eauto. Qed.
Print Assumptions C42_fast_terminates_complete.
(** MISSING from the full claim: graphs with equal weights at adjacent vertices (refuted below) *)
Theorem C42_fast_proper_partial : forall adj ws top fuel cs count, length adj = length ws -> symmetric adj -> weights_differ adj ws ->
  2 * Z.of_nat (length ws) + 2 < top -> (length ws < fuel)%nat -> fast_independent_sets adj ws top fuel = Some (cs, count) -> proper adj cs.
Proof.
  intros adj ws top fuel cs k H1 H2 D H3 H4 R. destruct (fast_ok adj ws top H1 H2 fuel H3 H4) as (cs' & k' & A & _ & P & _).
  rewrite R in A. injection A as -> ->. exact (P D).
Qed.
Print Assumptions C42_fast_proper_partial.

Theorem C42_maximum_terminates_complete : forall adj ws top fuel, length adj = length ws -> symmetric adj ->
  Z.of_nat (length ws) + 2 < top -> (length ws < fuel)%nat ->
  exists cs count, maximum_independent_sets adj ws top fuel = Some (cs, count) /\ complete (length ws) cs count /\ (count = 0 \/ In count cs).
Proof. intros adj ws top fuel H1 H2 H3 H4. destruct (max_ok adj ws top H1 H2 H3 fuel H4) as (cs & k & A & B & _ & _ & C). eauto. Qed.
Print Assumptions C42_maximum_terminates_complete.
Theorem C42_maximum_proper_partial : forall adj ws top fuel cs count, length adj = length ws -> symmetric adj -> weights_differ adj ws ->
  Z.of_nat (length ws) + 2 < top -> (length ws < fuel)%nat -> maximum_independent_sets adj ws top fuel = Some (cs, count) -> proper adj cs.
Proof.
  intros adj ws top fuel cs k H1 H2 D H3 H4 R. destruct (max_ok adj ws top H1 H2 H3 fuel H4) as (cs' & k' & A & _ & P & _).
  rewrite R in A. injection A as -> ->. exact (P D).
Qed.
Print Assumptions C42_maximum_proper_partial.
(** maximum_independent_sets: each class is a maximal independent set of what the previous classes leave (for all weights) ... *)
Theorem C42_maximum_classes_maximal : forall adj ws top fuel cs count, length adj = length ws -> symmetric adj ->
  Z.of_nat (length ws) + 2 < top -> (length ws < fuel)%nat -> maximum_independent_sets adj ws top fuel = Some (cs, count) -> greedy adj cs.
Proof.
  intros adj ws top fuel cs k H1 H2 H3 H4 R. destruct (max_ok adj ws top H1 H2 H3 fuel H4) as (cs' & k' & A & _ & _ & G & _).
  rewrite R in A. injection A as -> ->. exact G.
Qed.
Print Assumptions C42_maximum_classes_maximal.
(** ... so a vertex's colour is at most one more than the number of its neighbours *)
Lemma greedy_degree adj cs v r c : greedy adj cs -> nth_error adj v = Some r -> nth_error cs v = Some c -> c <= Z.of_nat (length r) + 1.
Proof.
  intros G Er Ec. destruct (Z.le_gt_cases c 1) as [|Hc]; [lia|].
  assert (I : incl (map (fun i => Z.of_nat i) (seq 1 (Z.to_nat (c - 1)))) (map (fun u => nth u cs 0) r)).
  { intros d Hd. apply in_map_iff in Hd. destruct Hd as (i & <- & Hi). apply in_seq in Hi.
    destruct (G v c (Z.of_nat i) Ec ltac:(lia)) as (u & (r' & Er' & Hu) & Eu). rewrite Er in Er'. injection Er' as <-.
    apply in_map_iff. exists u. split; [apply nth_error_nth; exact Eu|exact Hu]. }
  apply NoDup_incl_length in I; [rewrite !map_length, seq_length in I; lia|].
  apply FinFun.Injective_map_NoDup; [intros x y E; lia|apply seq_NoDup].
Qed.
Theorem C42_maximum_degree_bound : forall adj ws top fuel cs count, length adj = length ws -> symmetric adj ->
  Z.of_nat (length ws) + 2 < top -> (length ws < fuel)%nat -> maximum_independent_sets adj ws top fuel = Some (cs, count) ->
  forall v row c, nth_error adj v = Some row -> nth_error cs v = Some c -> c <= Z.of_nat (length row) + 1.
Proof. intros adj ws top fuel cs k H1 H2 H3 H4 R v row c. apply greedy_degree. exact (C42_maximum_classes_maximal adj ws top fuel cs k H1 H2 H3 H4 R). Qed.
Print Assumptions C42_maximum_degree_bound.

(** With a tie both functions give adjacent vertices the same colour. *)
Definition tie_adj := [[1%nat]; [0%nat]].
Lemma tie_sym : symmetric tie_adj.
Proof. intros v u (r & E & H). destruct v as [|[|v]]; cbn in E; [| |destruct v; discriminate]; injection E as <-; destruct H as [<-|[]]; eexists; split; [reflexivity|cbn; tauto|reflexivity|cbn; tauto]. Qed.
Theorem C42_fast_proper_with_ties_refuted : exists adj ws top fuel cs count, length adj = length ws /\ symmetric adj /\
  2 * Z.of_nat (length ws) + 2 < top /\ (length ws < fuel)%nat /\ fast_independent_sets adj ws top fuel = Some (cs, count) /\ ~ proper adj cs.
Proof.
  exists tie_adj, [7; 7], 1000, 5%nat, [1; 1], 1. repeat split; try (cbn; lia); [exact tie_sym|].
  intro P. apply (P 0%nat 1%nat 1 1); try reflexivity; [|lia]. exists [1%nat]. cbn. tauto.
Qed.
Print Assumptions C42_fast_proper_with_ties_refuted.
Theorem C42_maximum_proper_with_ties_refuted : exists adj ws top fuel cs count, length adj = length ws /\ symmetric adj /\
  Z.of_nat (length ws) + 2 < top /\ (length ws < fuel)%nat /\ maximum_independent_sets adj ws top fuel = Some (cs, count) /\ ~ proper adj cs.
Proof.
  exists tie_adj, [7; 7], 1000, 5%nat, [1; 1], 1. repeat split; try (cbn; lia); [exact tie_sym|].
  intro P. apply (P 0%nat 1%nat 1 1); try reflexivity; [|lia]. exists [1%nat]. cbn. tauto.
Qed.
Print Assumptions C42_maximum_proper_with_ties_refuted.

(** a path 0 - 1 - 2 - 3 with different weights *)
Definition path_adj := [[1]; [0; 2]; [1; 3]; [2]]%nat.
Example C42_path_sym : symmetric path_adj.
Proof.
  intros v u (r & E & H). destruct v as [|[|[|[|v]]]]; cbn in E; [| | | |destruct v; discriminate]; injection E as <-; cbn in H;
    repeat (destruct H as [<-|H]; [eexists; split; [reflexivity|cbn; tauto]|]); contradiction.
Qed.
Example C42_path_weights : weights_differ path_adj [5; 2; 9; 4].
Proof.
  intros v u (r & E & H) _. destruct v as [|[|[|[|v]]]]; cbn in E; [| | | |destruct v; discriminate]; injection E as <-; cbn in H;
    repeat (destruct H as [<-|H]; [cbn; lia|]); contradiction.
Qed.
Example C42_path_fast : fast_independent_sets path_adj [5; 2; 9; 4] 1000 5 = Some ([1; 2; 1; 2], 2).
Proof. reflexivity. Qed.
Example C42_path_maximum : maximum_independent_sets path_adj [5; 2; 9; 4] 1000 5 = Some ([2; 1; 2; 1], 2).
Proof. reflexivity. Qed.
