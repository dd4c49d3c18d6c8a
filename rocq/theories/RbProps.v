(** RBTreeMap (C24 finite map, C25 balance, C26 ordered access).  Histories are run from the freshly constructed map by RbRun.run; the
    map they should compute is given by RbSpec.steps. *)
From Verif Require Import Prelude RbModel RbSpec RbTree RbHeap RbHeap6 RbOps3 RbIter RbRun RbRunProofs RbRunProofs2.

Section P.
Variables (K V : Type) (eqb ltb : K -> K -> bool) (dk : K) (dv : V).
Notation RUN os := (run K V eqb ltb dv os (empty_map K V dk dv)).
Notation STEPS := (steps K V ltb dv).
Notation RBH s := (rbh (RbModel.node K V) (heap K V s) (red K V) (npar K V) (nleft K V) (nright K V)).
Notation DESC s := (desc (RbModel.node K V) (heap K V s) (nleft K V) (nright K V)).
Let none : fmap K V := fun _ => None.

(** C24 every history runs without touching a null or freed node and every result is that of the finite map; destroying the map then
    frees every node *)
Theorem C24_rbtree_map_is_finite_map : total_order K eqb ltb -> forall os, exists us s m, RUN os = Some (us, s) /\ STEPS none os us m /\
  (exists s', destroy K V s = Some (tt, s') /\ forall p, heap K V s' p = None).
Proof.
  intros ord os. destruct (run_ok K V eqb ltb dk dv ord os (empty_inv K V eqb ltb dk dv)) as (us & s & t & R' & H & S'). exists us, s, (look K V eqb (elems K V t)). split; [exact R'|]. split; [exact S'|].
  exact (destroy_run K V dk dv (iv_rc _ _ _ _ _ _ _ H)).
Qed.
(** C24 count(k) after a history, when the map is not empty *)
Theorem C24_rbtree_map_count_nonempty : total_order K eqb ltb -> forall os us s, RUN os = Some (us, s) -> exists m, STEPS none os us m /\
  forall k, (exists j, m j <> None) -> count K V eqb ltb k s = Some (match m k with Some _ => 1 | None => 0 end, s).
Proof.
  intros ord os us s E0. destruct (run_ok K V eqb ltb dk dv ord os (empty_inv K V eqb ltb dk dv)) as (us' & s' & t & R' & H & S'). rewrite E0 in R'. injection R' as <- <-.
  exists (look K V eqb (elems K V t)). split; [exact S'|]. intros k (j & Hj). apply (count_inv K V eqb ltb dk dv ord k H). intros ->. apply Hj. reflexivity.
Qed.
(** C24 refuted for count on an empty map: after any history that leaves it empty, count reads through the null root *)
Theorem C24_rbtree_map_count_empty_refuted : total_order K eqb ltb -> forall os us s, RUN os = Some (us, s) -> exists m, STEPS none os us m /\
  ((forall j, m j = None) -> forall k, count K V eqb ltb k s = None).
Proof.
  intros ord os us s E0. destruct (run_ok K V eqb ltb dk dv ord os (empty_inv K V eqb ltb dk dv)) as (us' & s' & t & R' & H & S'). rewrite E0 in R'. injection R' as <- <-.
  exists (look K V eqb (elems K V t)). split; [exact S'|]. intros Hm k. destruct t as [|c l i kk w r]; [exact (count_empty K V eqb ltb dk dv k H)|].
  pose proof (proj2 (look_empty K V eqb ltb ord _) Hm) as X. cbn [RbTree.elems] in X. rewrite app_length in X. cbn [length] in X. apply Nat.eqb_eq in X. lia.
Qed.

(** C25 after any history: black root, consistent parent links, no red node with a red child, equal black heights; keys ordered around
    every node; no downward path longer than 2*log2(size+1) *)
Theorem C25_rbtree_map_balanced : total_order K eqb ltb -> forall os us s, RUN os = Some (us, s) ->
  (exists b, RBH s hdr (root K V s) false b) /\
  (forall m p n, DESC s (root K V s) m p -> p <> 0 -> heap K V s p = Some n ->
    (forall j q nq, DESC s (nleft K V n) j q -> q <> 0 -> heap K V s q = Some nq -> ltb (nkey K V nq) (nkey K V n) = true) /\
    (forall j q nq, DESC s (nright K V n) j q -> q <> 0 -> heap K V s q = Some nq -> ltb (nkey K V n) (nkey K V nq) = true)) /\
  (exists n, size K V s = Some (n, s) /\ forall m p, DESC s (root K V s) m p -> m <= 2 * Nat.log2 (n + 1)).
Proof.
  intros ord os us s E0. destruct (run_ok K V eqb ltb dk dv ord os (empty_inv K V eqb ltb dk dv)) as (us' & s' & t & R' & H & _). rewrite E0 in R'. injection R' as _ <-.
  destruct (shape_ok K V ltb dk dv H) as (b & Hb & Hn). split; [exists b; exact Hb|]. split.
  - rewrite (Inv_root K V ltb dk dv H). exact (order_ok K V ltb s t _ (rc_t _ _ _ _ _ _ _ _ _ (iv_rc _ _ _ _ _ _ _ H)) (iv_srt _ _ _ _ _ _ _ H)).
  - exists (cnt K V s). split; [reflexivity|]. intros m p D. pose proof (desc_rbh K V s _ _ _ _ Hb m p D : m <= 2 * b + 0). pose proof (log_bound _ _ Hn). lia.
Qed.
(** C25 a lookup reads at most 2*log2(size+1) nodes: with that much fuel it already ends *)
Theorem C25_rbtree_map_search_cost : total_order K eqb ltb -> forall os us s k, RUN os = Some (us, s) -> root K V s <> 0 ->
  exists n x, size K V s = Some (n, s) /\ get_node K V eqb ltb (2 * Nat.log2 (n + 1)) (root K V s) k s = Some (x, s).
Proof.
  intros ord os us s k E0 Hr. destruct (run_ok K V eqb ltb dk dv ord os (empty_inv K V eqb ltb dk dv)) as (us' & s' & t & R' & H & _). rewrite E0 in R'. injection R' as _ <-.
  destruct (shape_ok K V ltb dk dv H) as (b & Hb & Hn). pose proof (log_bound _ _ Hn) as Hl. destruct (search_cost K V eqb ltb s k _ _ _ _ Hb Hr (2 * Nat.log2 (cnt K V s + 1)) ltac:(cbv iota; lia)) as (x & Hx).
  exists (cnt K V s), x. split; [reflexivity|exact Hx].
Qed.

(** C26 after any history the forward and backward walks of both iterator kinds list the entries in key order, each once; the walk from
    lower_bound(k) / upper_bound(k) lists those not less than / greater than k *)
Theorem C26_rbtree_map_ordered_access : total_order K eqb ltb -> forall os us s, RUN os = Some (us, s) -> exists m l, STEPS none os us m /\ lists K V ltb m l /\
  exec K V eqb ltb dv Iterate s = Some (OList l, s) /\ exec K V eqb ltb dv ForEach s = Some (OList l, s) /\ exec K V eqb ltb dv ReverseBack s = Some (OList l, s) /\
  exec K V eqb ltb dv IterateReverse s = Some (OList (rev l), s) /\ exec K V eqb ltb dv IterateBack s = Some (OList (rev l), s) /\
  (forall k, exec K V eqb ltb dv (LowerBound k) s = Some (OList (filter (fun e => negb (ltb (fst e) k)) l), s)) /\
  (forall k, exec K V eqb ltb dv (UpperBound k) s = Some (OList (filter (fun e => ltb k (fst e)) l), s)).
Proof.
  intros ord os us s E0. destruct (run_ok K V eqb ltb dk dv ord os (empty_inv K V eqb ltb dk dv)) as (us' & s' & t & R' & H & S'). rewrite E0 in R'. injection R' as <- <-.
  exists (look K V eqb (elems K V t)), (map snd (elems K V t)). split; [exact S'|]. split; [apply (lists_srt K V eqb ltb ord); exact (iv_srt _ _ _ _ _ _ _ H)|]. exact (walks_ok K V eqb ltb dk dv ord H).
Qed.
(** C26 erasing through iterators: erase(begin()+n) and erase(begin()+n, begin()+n+c) remove exactly those entries and return the
    iterator behind them (already a step of C24's histories; restated for one step after any history) *)
Theorem C26_rbtree_map_erase_through_iterators : total_order K eqb ltb -> forall os us s n c, RUN os = Some (us, s) -> exists m l, STEPS none os us m /\ lists K V ltb m l /\
  (exists s' m', exec K V eqb ltb dv (EraseAt n) s = Some (OList (skipn (S n) l), s') /\ STEPS none (os ++ [EraseAt n]) (us ++ [OList (skipn (S n) l)]) m' /\ lists K V ltb m' (firstn n l ++ skipn (S n) l)) /\
  (exists s' m', exec K V eqb ltb dv (EraseSpan n c) s = Some (OList (skipn (n + c) l), s') /\ STEPS none (os ++ [EraseSpan n c]) (us ++ [OList (skipn (n + c) l)]) m' /\ lists K V ltb m' (firstn n l ++ skipn (n + c) l)).
Proof.
  intros ord os us s n c E0. destruct (run_ok K V eqb ltb dk dv ord os (empty_inv K V eqb ltb dk dv)) as (us' & s' & t & R' & H & S'). rewrite E0 in R'. injection R' as <- <-.
  pose proof (lists_srt K V eqb ltb ord _ (iv_srt _ _ _ _ _ _ _ H)) as Ll. exists (look K V eqb (elems K V t)), (map snd (elems K V t)). split; [exact S'|]. split; [exact Ll|]. split.
  - destruct (exec_run K V eqb ltb dk dv ord (EraseAt n) H) as (u & s1 & t1 & R1 & H1 & S1). inversion S1; subst. assert (l = map snd (elems K V t)) as -> by (eapply (lists_unique K V eqb ltb ord); eassumption).
    exists s1, (look K V eqb (elems K V t1)). split; [exact R1|]. split; [|assumption]. eapply (steps_snoc K V ltb dv); eassumption.
  - destruct (exec_run K V eqb ltb dk dv ord (EraseSpan n c) H) as (u & s1 & t1 & R1 & H1 & S1). inversion S1; subst. assert (l = map snd (elems K V t)) as -> by (eapply (lists_unique K V eqb ltb ord); eassumption).
    exists s1, (look K V eqb (elems K V t1)). split; [exact R1|]. split; [|assumption]. eapply (steps_snoc K V ltb dv); eassumption.
Qed.
(** C26 refuted for const_reverse_iterator: --crend() lands on the largest entry, not on the smallest, so walking back from crend() does
    not mirror the walk of reverse_iterator *)
Theorem C26_const_reverse_decrement_refuted : total_order K eqb ltb -> forall os us s, RUN os = Some (us, s) -> exists m l, STEPS none os us m /\ lists K V ltb m l /\
  forall k1 v1 k2 v2 q, l = (k1, v1) :: q ++ [(k2, v2)] ->
  exists p1 n1 p2 n2, decrement K V L L hdr s = Some (p1, s) /\ heap K V s p1 = Some n1 /\ nkey K V n1 = k1 /\
    decrement K V R L hdr s = Some (p2, s) /\ heap K V s p2 = Some n2 /\ nkey K V n2 = k2 /\ k1 <> k2.
Proof.
  intros ord os us s E0. destruct (run_ok K V eqb ltb dk dv ord os (empty_inv K V eqb ltb dk dv)) as (us' & s' & t & R' & H & S'). rewrite E0 in R'. injection R' as <- <-.
  exists (look K V eqb (elems K V t)), (map snd (elems K V t)). split; [exact S'|]. split; [apply (lists_srt K V eqb ltb ord); exact (iv_srt _ _ _ _ _ _ _ H)|]. exact (crend_ends K V eqb ltb dk dv ord H).
Qed.
End P.

(** nat keys *)
Lemma nat_order : total_order nat Nat.eqb Nat.ltb.
Proof. constructor; intros; [apply Nat.eqb_eq|apply Nat.ltb_irrefl|apply Nat.ltb_lt; apply Nat.ltb_lt in H, H0; lia|rewrite !Nat.ltb_lt; lia]. Qed.
Definition hist : list (op nat nat) :=
  [Insert 5 50; Insert 3 30; Insert 8 80; Insert 1 10; Insert 4 40; Insert 3 31; Index 9; Assign 7 70; Get 3; Get 6; Size; Erase 5; Erase 6; Iterate; IterateReverse; IterateBack; ReverseBack; ForEach;
   LowerBound 4; UpperBound 4; EraseAt 1; EraseSpan 1 2; Iterate; Empty; Clear; Empty; Size].
Example C24_example : exists s, run nat nat Nat.eqb Nat.ltb 0 hist (empty_map nat nat 0 0) =
  Some ([ODone; ODone; ODone; ODone; ODone; ODone; ORef 0; ODone; OVal (Some 31); OVal None; ONum 7; ONum 1; ONum 0;
    OList [(1, 10); (3, 31); (4, 40); (7, 70); (8, 80); (9, 0)]; OList [(9, 0); (8, 80); (7, 70); (4, 40); (3, 31); (1, 10)]; OList [(9, 0); (8, 80); (7, 70); (4, 40); (3, 31); (1, 10)];
    OList [(1, 10); (3, 31); (4, 40); (7, 70); (8, 80); (9, 0)]; OList [(1, 10); (3, 31); (4, 40); (7, 70); (8, 80); (9, 0)];
    OList [(4, 40); (7, 70); (8, 80); (9, 0)]; OList [(7, 70); (8, 80); (9, 0)]; OList [(4, 40); (7, 70); (8, 80); (9, 0)]; OList [(8, 80); (9, 0)]; OList [(1, 10); (8, 80); (9, 0)]; OBool false; ODone; OBool true; ONum 0], s).
Proof. eexists. vm_compute. reflexivity. Qed.
(** the empty map is reachable, and so is a map with two entries *)
Example C24_count_example : count nat nat Nat.eqb Nat.ltb 5 (empty_map nat nat 0 0) = None.
Proof. vm_compute. reflexivity. Qed.
Example C26_crend_example : exists us s, run nat nat Nat.eqb Nat.ltb 0 [Insert 5 50; Insert 3 30] (empty_map nat nat 0 0) = Some (us, s) /\ lists nat nat Nat.ltb (fun k => if k =? 3 then Some 30 else if k =? 5 then Some 50 else None) [(3, 30); (5, 50)].
Proof.
  eexists _, _. split; [vm_compute; reflexivity|]. split.
  - intros k v. destruct (Nat.eqb_spec k 3) as [->|]; [|destruct (Nat.eqb_spec k 5) as [->|]]; cbn; split; intro X; repeat (destruct X as [X|X]; [try congruence|]); try contradiction; try discriminate; injection X as <-; auto.
  - intros p k1 v1 k2 v2 q E0. destruct p as [|? [|? [|]]]; try discriminate. injection E0 as <- _ <- _ _. reflexivity.
Qed.

Print Assumptions C24_rbtree_map_is_finite_map.
Print Assumptions C24_rbtree_map_count_nonempty.
Print Assumptions C24_rbtree_map_count_empty_refuted.
Print Assumptions C25_rbtree_map_balanced.
Print Assumptions C25_rbtree_map_search_cost.
Print Assumptions C26_rbtree_map_ordered_access.
Print Assumptions C26_rbtree_map_erase_through_iterators.
Print Assumptions C26_const_reverse_decrement_refuted.
