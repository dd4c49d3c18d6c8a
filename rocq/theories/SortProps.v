(** C18, C19, C22: merge sorts and the unstable pair sort. *)
From Coq Require Import Sorted.
From Verif Require Import Prelude SortModel SortSpec SortProofs SortProofs2 SortProofs3 QuickProofs.

(** C18: sequential merge_sort_pair, any length, any strict weak order, any contents of the temporary storage. *)
Theorem C18_seq_merge_sort_stable : forall (A : Type) (comp : A -> A -> bool), strict_weak_order comp -> forall a o : list A, length o = length a ->
  exists out, merge_sort comp a o = Some out /\ stable_sort_of comp a out.
Proof. exact @merge_sort_ok. Qed.
Print Assumptions C18_seq_merge_sort_stable.
(** there is only one stable sort *)
Theorem C18_stable_sort_unique : forall (A : Type) (comp : A -> A -> bool), strict_weak_order comp -> forall i o o', stable_sort_of comp i o -> stable_sort_of comp i o' -> o = o'.
Proof. exact @SS_unique. Qed.
Print Assumptions C18_stable_sort_unique.

(** C19, proved part: the OpenMP stable merge sort is right for any thread order whenever all non-empty chunks need the same parity of
    merge passes (ceil(log2(ceil(n/16))) passes for n elements); in particular for one thread, for length <= 256 * threads, and when the
    thread count divides the length.  Missing: the other lengths, where it is false (next theorem). *)
Theorem C19_omp_merge_sort_stable_partial : forall (A : Type) (comp : A -> A -> bool) dop ord ordc inp o, strict_weak_order comp -> 0 < dop ->
  (forall k, Permutation (ord k) (seq 0 dop)) -> Permutation ordc (seq 0 dop) -> length o = length inp ->
  (dop * 256 < length inp -> forall t, nwork dop (length inp) * t < length inp ->
     Nat.odd (merge_passes (Nat.min (nwork dop (length inp)) (length inp - nwork dop (length inp) * t))) = Nat.odd (merge_passes (Nat.min (nwork dop (length inp)) (length inp)))) ->
  exists out, omp_merge_sort comp dop ord ordc inp o = Some out /\ stable_sort_of comp inp out.
Proof. exact @omp_merge_sort_ok. Qed.
Print Assumptions C19_omp_merge_sort_stable_partial.
Theorem C19_omp_merge_sort_even_split_partial : forall (A : Type) (comp : A -> A -> bool) dop ord ordc inp o, strict_weak_order comp -> 0 < dop ->
  (forall k, Permutation (ord k) (seq 0 dop)) -> Permutation ordc (seq 0 dop) -> length o = length inp ->
  length inp mod dop = 0 -> exists out, omp_merge_sort comp dop ord ordc inp o = Some out /\ stable_sort_of comp inp out.
Proof. exact @omp_merge_sort_even. Qed.
Print Assumptions C19_omp_merge_sort_even_split_partial.

(** 513 elements on two threads: chunks of 257 and 256 take 5 and 4 passes, so their results are in different buffers and the
    final merge reads a half-sorted chunk. *)
Fixpoint adjacent_le (l : list nat) : bool := match l with x :: (y :: _) as r => negb (y <? x) && adjacent_le r | _ => true end.
Lemma ascending_adjacent l : ascending Nat.ltb l -> adjacent_le l = true.
Proof.
  induction 1 as [|x l S IH F]; [reflexivity|]. destruct l as [|y l]; [reflexivity|]. cbn [adjacent_le]. inversion F; subst. rewrite H1. exact IH.
Qed.
Definition bad_input : list nat := repeat 0 257 ++ repeat 1 128 ++ repeat 0 128.
Theorem C19_omp_merge_sort_stable_refuted : exists out,
  omp_merge_sort Nat.ltb 2 (fun _ => [0; 1]) [0; 1] bad_input (repeat 0 513) = Some out /\ ~ ascending Nat.ltb out.
Proof.
  destruct (omp_merge_sort Nat.ltb 2 (fun _ => [0; 1]) [0; 1] bad_input (repeat 0 513)) as [out|] eqn:E.
  - exists out. split; [reflexivity|]. intro H. apply ascending_adjacent in H.
    assert (Q : match omp_merge_sort Nat.ltb 2 (fun _ => [0; 1]) [0; 1] bad_input (repeat 0 513) with Some out => adjacent_le out | None => true end = false) by (vm_compute; reflexivity).
    rewrite E in Q. congruence.
  - exfalso. assert (Q : match omp_merge_sort Nat.ltb 2 (fun _ => [0; 1]) [0; 1] bad_input (repeat 0 513) with Some out => true | None => false end = true) by (vm_compute; reflexivity).
    rewrite E in Q. discriminate.
Qed.
Print Assumptions C19_omp_merge_sort_stable_refuted.

(** C22: sort_pair permutes the pairs into ascending order of operator<, whatever comparator is passed. *)
Theorem C22_sort_pair_ascending_by_less_partial : forall (A : Type) (lt : A -> A -> bool), strict_weak_order lt -> forall compOp (a : list A),
  exists a', sort_pair lt compOp a = Some a' /\ Permutation a a' /\ ascending lt a'.
Proof. exact @sort_pair_ok. Qed.
Print Assumptions C22_sort_pair_ascending_by_less_partial.
(** With the comparator greater-than, [1; 2] is left as it is. *)
Theorem C22_sort_pair_comparator_refuted : exists a', sort_pair Nat.ltb (fun x y => y <? x) [1; 2] = Some a' /\ ~ ascending (fun x y => y <? x) a'.
Proof.
  exists [1; 2]. split; [reflexivity|]. intro H. inversion H as [|? ? ? F]; subst. inversion F as [|? ? G]; subst. discriminate.
Qed.
Print Assumptions C22_sort_pair_comparator_refuted.

(** the hypotheses are met: comparing the first component is a strict weak order that does not tell all pairs apart *)
Lemma fst_swo : strict_weak_order (fun p q : nat * nat => fst p <? fst q).
Proof. split; [intros; apply Nat.ltb_irrefl|]. split; intros x y z; rewrite ?Nat.ltb_lt; intros; lia. Qed.
Example C18_case : exists out, merge_sort (fun p q : nat * nat => fst p <? fst q) [(3, 0); (1, 1); (3, 2); (1, 3)] (repeat (0, 0) 4) = Some out
  /\ out = [(1, 1); (1, 3); (3, 0); (3, 2)].
Proof. eexists; split; [reflexivity|reflexivity]. Qed.
Example C19_case : forall t, nwork 2 514 * t < 514 -> Nat.odd (merge_passes (Nat.min (nwork 2 514) (514 - nwork 2 514 * t))) = Nat.odd (merge_passes (Nat.min (nwork 2 514) 514)).
Proof. intros t H. replace (nwork 2 514) with 257 in * by reflexivity. destruct t as [|[|t]]; [reflexivity|reflexivity|lia]. Qed.
