(** C95: the index arithmetic of vectors and tensors: the offset of an index is its rank in the storage order. *)
From Coq Require Import ZArith List Arith Permutation Lia.
Import ListNotations.
From Verif Require Import IdxModel IdxSpec IdxProofs.
Open Scope Z_scope.

Section Offset.
Variables (ns : list Z) (orders : list nat).
Hypothesis P : storage_order (length ns) orders.
Let adapt a : index ns a -> offset ns orders a = radix (arranged orders ns) (arranged orders a).
Proof. intros A. apply offset_radix; [exact P|]. symmetry. exact (Forall2_length _ _ _ A). Qed.

(** Whatever the storage order, the indices of the box are numbered one-to-one by the numbers from 0 up to the extent. *)
Theorem C95_bijection :
  (forall a, index ns a -> 0 <= offset ns orders a < extent ns) /\
  (forall a b, index ns a -> index ns b -> offset ns orders a = offset ns orders b -> a = b) /\
  (Forall (fun n => 0 <= n) ns -> forall k, 0 <= k < extent ns -> exists a, index ns a /\ offset ns orders a = k).
Proof.
  split; [|split].
  - intros a A. rewrite (adapt a A), <- (product_arranged ns orders P). apply radix_range, arranged_index; assumption.
  - intros a b A B E. rewrite (adapt a A), (adapt b B) in E. apply (arranged_inj ns orders); [exact P|symmetry; exact (Forall2_length _ _ _ A)|symmetry; exact (Forall2_length _ _ _ B)|].
    apply (radix_inj (arranged orders ns)); [apply arranged_index; assumption..|exact E].
  - intros N k K. rewrite <- (product_arranged ns orders P) in K. destruct (radix_onto (arranged orders ns) k) as (x & X & R); [|exact K|].
    + unfold arranged. apply Forall_forall. intros z Z. apply in_map_iff in Z. destruct Z as (o & <- & O). rewrite Forall_forall in N. apply N, nth_In.
      apply (Permutation_in _ P), in_seq in O. lia.
    + destruct (arranged_onto ns orders x P X) as (a & A & <-). exists a. split; [exact A|]. now rewrite (adapt a A).
Qed.

(** Offsets increase lexicographically: the dimension named first by the storage order is the slowest, the one named last is contiguous. *)
Theorem C95_order a b : index ns a -> index ns b -> (offset ns orders a < offset ns orders b <-> lex (arranged orders a) (arranged orders b)).
Proof. intros A B. rewrite (adapt a A), (adapt b B). apply radix_lex_iff; apply arranged_index; assumption. Qed.
End Offset.
Print Assumptions C95_bijection.
Print Assumptions C95_order.

(** In the order of the extents, giving only the leading coordinates yields the start of a contiguous block: the trailing coordinates number the block. *)
Lemma combine_app_l {A B} (a r : list A) : forall (b : list B), (length a <= length b)%nat -> combine (a ++ r) b = combine a b ++ combine r (skipn (length a) b).
Proof. induction a as [|x a IH]; intros [|y b] H; cbn in *; try lia; try reflexivity. rewrite IH by lia. reflexivity. Qed.
Lemma total_app l m : total (l ++ m) = total l + total m.
Proof. induction l; cbn in *; [reflexivity|]. unfold total in *. lia. Qed.
Lemma total_zero n (b : list Z) : total (map (fun p => fst p * snd p) (combine (repeat 0 n) b)) = 0.
Proof. revert b. induction n; intros [|y b]; cbn; try reflexivity. apply IHn. Qed.

(** For every storage order, leaving out trailing coordinates means giving zeros. *)
Theorem C95_fewer ns orders a k : length ns = (length a + k)%nat -> offset ns orders a = offset ns orders (a ++ repeat 0 k).
Proof.
  intros E. unfold offset. rewrite !fold_left_total, combine_app_l by (unfold lookup_bases; rewrite map_length, seq_length; lia).
  rewrite map_app, total_app, total_zero. lia.
Qed.
Print Assumptions C95_fewer.

Lemma arranged_natural (ns a : list Z) : length a = length ns -> arranged (natural ns) a = a.
Proof. intros E. unfold arranged, natural. rewrite <- E. pose proof (map_nth_seq (fun z => z) 0 a) as Q. rewrite map_id in Q. symmetry. exact Q. Qed.
Lemma radix_app e1 x1 e2 x2 : length e1 = length x1 -> radix (e1 ++ e2) (x1 ++ x2) = radix e1 x1 * product e2 + radix e2 x2.
Proof.
  revert x1. induction e1 as [|n e IH]; intros [|d x] E; try discriminate; [cbn; lia|]. cbn [app radix]. rewrite IH by (cbn in E; lia).
  assert (Q : product (e ++ e2) = product e * product e2) by (clear; induction e as [|z e IH]; [change (product e2 = 1 * product e2); ring|change (z * product (e ++ e2) = z * product e * product e2); rewrite IH; ring]). rewrite Q. ring.
Qed.
Theorem C95_block outer inner a b : length a = length outer -> length b = length inner ->
  offset (outer ++ inner) (natural (outer ++ inner)) (a ++ b) = offset (outer ++ inner) (natural (outer ++ inner)) a + offset inner (natural inner) b /\
  offset (outer ++ inner) (natural (outer ++ inner)) a = extent inner * offset outer (natural outer) a.
Proof.
  intros A B. assert (N : forall l, storage_order (length l) (natural l)) by (intros; apply Permutation_refl).
  assert (L : length (a ++ b) = length (outer ++ inner)) by (rewrite !app_length; lia).
  assert (Z : length (a ++ repeat 0 (length inner)) = length (outer ++ inner)) by (rewrite !app_length, repeat_length; lia).
  rewrite (C95_fewer (outer ++ inner) _ a (length inner)) by (rewrite app_length; lia).
  rewrite !offset_radix by (try apply N; assumption). rewrite !arranged_natural by congruence.
  rewrite !radix_app by congruence. change (extent inner) with (product inner).
  assert (R : forall e n, radix e (repeat 0 n) = 0) by (induction e; intros [|n]; cbn; try reflexivity; apply IHe). rewrite R. lia.
Qed.
Print Assumptions C95_block.

(** The sums and products of parameter packs are those of the leading and trailing arguments. *)
Theorem C95_packs args i : incl_prefix_sum (Z.of_nat i) args = total (firstn (S i) args) /\ excl_prefix_sum (Z.of_nat i) args = total (firstn i args) /\
  excl_suffix_mul (Z.of_nat i) args = product (skipn (S i) args).
Proof.
  split; [|split; [|apply suffix_mul_skipn]].
  - unfold incl_prefix_sum. rewrite (prefix_from Z.leb (Z.of_nat i) (S i)); [now rewrite Nat.sub_0_r|]. intros k. destruct (Nat.ltb_spec k (S i)); [apply Z.leb_le|apply Z.leb_gt]; lia.
  - unfold excl_prefix_sum. rewrite (prefix_from Z.ltb (Z.of_nat i) i); [now rewrite Nat.sub_0_r|]. intros k. destruct (Nat.ltb_spec k i); [apply Z.ltb_lt|apply Z.ltb_ge]; lia.
Qed.
Print Assumptions C95_packs.

(** storage_range answers the extent of the i-th slowest dimension, range the extent as declared. *)
Theorem C95_ranges ns orders i : (i < length orders)%nat -> storage_range ns orders i = nth i (arranged orders ns) 0 /\ range ns i = nth i ns 0.
Proof.
  intros H. split; [|reflexivity]. unfold storage_range, arranged. transitivity (nth i (map (fun o => nth o ns 0) orders) (nth 0 ns 0)).
  - symmetry. apply (map_nth (fun o => nth o ns 0)).
  - apply nth_indep. now rewrite map_length.
Qed.
Print Assumptions C95_ranges.

(** A 2 x 3 x 4 tensor stored with dimension 2 slowest, then 0, then 1. *)
Example C95_ex : storage_order 3 [2; 0; 1]%nat /\ index [2; 3; 4] [1; 2; 3] /\ offset [2; 3; 4] [2; 0; 1]%nat [1; 2; 3] = 23 /\
  offset [2; 3; 4] [2; 0; 1]%nat [1; 0; 2] = 15 /\ offset [2; 3; 4] [2; 0; 1]%nat [0; 1; 0] = 1 /\ offset [2; 3; 4] (natural [2; 3; 4]) [1; 2] = 20 /\ lookup_bases [2; 3; 4] [2; 0; 1]%nat = [3; 1; 6].
Proof.
  split; [|split; [repeat constructor; lia|vm_compute; repeat split]]. unfold storage_order. cbn. apply (perm_trans (l' := [0; 2; 1]%nat)); [apply perm_swap|]. apply perm_skip, perm_swap.
Qed.
