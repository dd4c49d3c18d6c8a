(** C95: lemmas. *)
From Coq Require Import ZArith List Arith Permutation Lia.
Import ListNotations.
From Verif Require Import IdxModel IdxSpec.
Open Scope Z_scope.

Lemma Forall2_length {A B} (R : A -> B -> Prop) l m : Forall2 R l m -> length l = length m.
Proof. induction 1; cbn; congruence. Qed.

(** mixed radix numbers *)
Fixpoint radix (e x : list Z) : Z := match e, x with _ :: es, d :: ds => d * product es + radix es ds | _, _ => 0 end.
Lemma radix_range e x : index e x -> 0 <= radix e x < product e.
Proof. induction 1 as [|n d e x H F IH]; cbn [radix product fold_right]; [lia|]. fold (product e) in *. nia. Qed.
Lemma radix_lex e x y : index e x -> index e y -> lex x y -> radix e x < radix e y.
Proof.
  intros X Y L. revert e X Y. induction L as [a b r s H E|a r s L IH]; intros e X Y; inversion X; subst; inversion Y; subst; cbn [radix].
  - pose proof (radix_range _ _ H4). pose proof (radix_range _ _ H7). nia.
  - specialize (IH _ H3 H6). lia.
Qed.
Lemma lex_total e x y : index e x -> index e y -> x = y \/ lex x y \/ lex y x.
Proof.
  intros X. revert y. induction X as [|n d e x H F IH]; intros y Y; inversion Y; subst; [now left|]. destruct (Z.lt_trichotomy d y0) as [L|[-> |L]].
  - right; left. constructor; [exact L|]. apply Forall2_length in F, H4. congruence.
  - destruct (IH _ H4) as [-> |[L|L]]; [now left|right; left; now constructor|right; right; now constructor].
  - right; right. constructor; [exact L|]. apply Forall2_length in F, H4. congruence.
Qed.
Lemma radix_lex_iff e x y : index e x -> index e y -> (radix e x < radix e y <-> lex x y).
Proof. intros X Y. split; [|apply radix_lex; assumption]. intros H. destruct (lex_total e x y X Y) as [-> |[L|L]]; [lia|exact L|pose proof (radix_lex e y x Y X L); lia]. Qed.
Lemma radix_inj e x y : index e x -> index e y -> radix e x = radix e y -> x = y.
Proof. intros X Y E. destruct (lex_total e x y X Y) as [H|[L|L]]; [exact H|pose proof (radix_lex e x y X Y L); lia|pose proof (radix_lex e y x Y X L); lia]. Qed.
Lemma radix_onto e k : Forall (fun n => 0 <= n) e -> 0 <= k < product e -> exists x, index e x /\ radix e x = k.
Proof.
  intros E. revert k. induction E as [|n e H E IH]; intros k K; cbn [product fold_right] in K; [exists []; split; [constructor|cbn; lia]|]. fold (product e) in K.
  assert (P : 0 < product e) by nia. destruct (IH (k mod product e)) as (x & X & R); [apply Z.mod_pos_bound; exact P|].
  exists (k / product e :: x). split.
  - constructor; [|exact X]. split; [apply Z.div_pos; lia|apply Z.div_lt_upper_bound; lia].
  - cbn [radix]. rewrite R. pose proof (Z.div_mod k (product e) ltac:(lia)). lia.
Qed.

(** the sums and products of the parameter packs *)
Lemma combine_seq (P : nat -> bool) (op : Z -> Z -> Z) (u : Z) args : forall k,
  fold_right (fun p s => op (if P (fst p) then snd p else u) s) u (combine (seq k (length args)) args) =
  (fix go k l := match l with [] => u | a :: r => op (if P k then a else u) (go (S k) r) end) k args.
Proof. induction args as [|a r IH]; intros k; [reflexivity|]. cbn. now rewrite IH. Qed.
Lemma suffix_mul_from i : forall args k, (k <= i)%nat ->
  fold_right (fun p s => (if Z.of_nat i <? Z.of_nat (fst p) then snd p else 1) * s) 1 (combine (seq k (length args)) args) = product (skipn (S i - k) args).
Proof.
  induction args as [|a r IH]; intros k K; [now rewrite skipn_nil|]. cbn [length seq combine fold_right fst snd].
  replace (Z.of_nat i <? Z.of_nat k) with false by (symmetry; apply Z.ltb_ge; lia). rewrite Z.mul_1_l. replace (S i - k)%nat with (S (i - k)) by lia. cbn [skipn].
  destruct (Nat.eq_dec k i) as [-> |N]; [|rewrite IH by lia; f_equal; f_equal; lia].
  rewrite Nat.sub_diag. cbn [skipn].
  enough (H : forall k, (i < k)%nat -> fold_right (fun p s => (if Z.of_nat i <? Z.of_nat (fst p) then snd p else 1) * s) 1 (combine (seq k (length r)) r) = product r) by (apply H; lia).
  clear. induction r as [|a r IH]; intros k K; [reflexivity|]. cbn [length seq combine fold_right fst snd product].
  replace (Z.of_nat i <? Z.of_nat k) with true by (symmetry; apply Z.ltb_lt; lia). rewrite IH by lia. reflexivity.
Qed.
Lemma suffix_mul_skipn i args : excl_suffix_mul (Z.of_nat i) args = product (skipn (S i) args).
Proof. unfold excl_suffix_mul. rewrite suffix_mul_from by lia. now rewrite Nat.sub_0_r. Qed.
Lemma prefix_from (c : Z -> Z -> bool) (I : Z) (m : nat) : (forall k, c (Z.of_nat k) I = (k <? m)%nat) -> forall args k,
  fold_right (fun p s => (if c (Z.of_nat (fst p)) I then snd p else 0) + s) 0 (combine (seq k (length args)) args) = total (firstn (m - k) args).
Proof.
  intros C. induction args as [|a r IH]; intros k; [now rewrite firstn_nil|]. cbn [length seq combine fold_right fst snd]. rewrite C, IH.
  destruct (Nat.ltb_spec k m) as [L|L].
  - replace (m - k)%nat with (S (m - S k)) by lia. reflexivity.
  - replace (m - k)%nat with 0%nat by lia. replace (m - S k)%nat with 0%nat by lia. reflexivity.
Qed.

(** reindexing by the storage order *)
Lemma total_perm l m : Permutation l m -> total l = total m.
Proof. induction 1; cbn; [reflexivity|unfold total in *; lia|lia|congruence]. Qed.
Lemma position_nth l : NoDup l -> forall p, (p < length l)%nat -> position (nth p l 0%nat) l = p.
Proof.
  induction 1 as [|x r N D IH]; intros p H; [cbn in H; lia|]. destruct p; cbn [nth position]; [now rewrite Nat.eqb_refl|].
  cbn in H. destruct (Nat.eqb_spec x (nth p r 0%nat)) as [-> |_]; [exfalso; apply N, nth_In; lia|]. rewrite IH by lia. reflexivity.
Qed.
Lemma fold_left_total l : fold_left Z.add l 0 = total l.
Proof. rewrite fold_symmetric; [reflexivity|intros; lia|intros; lia]. Qed.
Lemma nth_map_seq {A} (f : nat -> A) d n i : (i < n)%nat -> nth i (map f (seq 0 n)) d = f i.
Proof. intros H. rewrite (nth_indep _ d (f 0%nat)) by now rewrite map_length, seq_length. rewrite map_nth, seq_nth by exact H. reflexivity. Qed.
Lemma map_nth_seq {A B} (f : A -> B) d l : map f l = map (fun p => f (nth p l d)) (seq 0 (length l)).
Proof. induction l; [reflexivity|]. cbn [length seq map nth]. f_equal. rewrite <- seq_shift, map_map. exact IHl. Qed.
Lemma combine_products x b : length x = length b -> map (fun p => fst p * snd p) (combine x b) = map (fun i => nth i x 0 * nth i b 0) (seq 0 (length x)).
Proof.
  revert b. induction x as [|a x IH]; intros [|c b] E; try discriminate; [reflexivity|]. cbn [combine map length seq nth fst snd]. f_equal. rewrite IH by (cbn in E; lia). now rewrite <- seq_shift, map_map.
Qed.
Lemma radix_total e : forall x, length x = length e -> radix e x = total (map (fun p => nth p x 0 * product (skipn (S p) e)) (seq 0 (length e))).
Proof.
  induction e as [|n e IH]; intros [|d x] E; try discriminate; [reflexivity|]. cbn [length seq map nth radix total fold_right skipn]. rewrite <- seq_shift, map_map, IH by (cbn in E; lia). reflexivity.
Qed.
Lemma offset_radix ns orders a : storage_order (length ns) orders -> length a = length ns -> offset ns orders a = radix (arranged orders ns) (arranged orders a).
Proof.
  intros P E. assert (L : length orders = length ns) by (apply Permutation_length in P; now rewrite seq_length in P).
  assert (D : NoDup orders) by (apply (Permutation_NoDup (Permutation_sym P)), seq_NoDup).
  unfold offset. rewrite fold_left_total, combine_products by (unfold lookup_bases; now rewrite map_length, seq_length). rewrite E.
  rewrite radix_total by (unfold arranged; now rewrite !map_length). replace (length (arranged orders ns)) with (length ns) by (unfold arranged; now rewrite map_length).
  rewrite (map_ext_in _ (fun i => nth i a 0 * product (skipn (S (position i orders)) (storage_extents ns orders)))).
  - rewrite (total_perm _ _ (Permutation_map _ (Permutation_sym P))). rewrite (map_nth_seq _ 0%nat orders), L. f_equal. apply map_ext_in. intros p H. apply in_seq in H.
    rewrite position_nth by (try exact D; lia). unfold arranged, storage_extents. f_equal.
    transitivity (nth p (map (fun o => nth o a 0) orders) (nth 0 a 0)); [symmetry; apply (map_nth (fun o => nth o a 0))|apply nth_indep; rewrite map_length; lia].
  - intros i H. apply in_seq in H. f_equal. unfold lookup_bases. rewrite nth_map_seq by lia. unfold lookup_orders. rewrite nth_map_seq by lia.
    assert (B : (position i orders < length ns)%nat).
    { assert (In i orders) by (apply (Permutation_in _ (Permutation_sym P)), in_seq; lia). destruct (In_nth orders i 0%nat H0) as (p & Q & <-). rewrite position_nth by assumption. lia. }
    unfold storage_bases. rewrite nth_map_seq by exact B. apply suffix_mul_skipn.
Qed.
Lemma arranged_index ns orders a : storage_order (length ns) orders -> index ns a -> index (arranged orders ns) (arranged orders a).
Proof.
  intros P H. assert (K : forall o, In o orders -> (o < length ns)%nat) by (intros o O; apply (Permutation_in _ P), in_seq in O; lia).
  unfold arranged. revert K. generalize orders. intros l K. clear P. induction l as [|o l IH]; cbn; [constructor|]. constructor; [|apply IH; intros; apply K; now right].
  specialize (K o (or_introl eq_refl)). revert o K. clear - H. induction H; intros o K; cbn in *; [lia|]. destruct o; [assumption|]. apply IHForall2. lia.
Qed.
Lemma arranged_inj (ns : list Z) orders a b : storage_order (length ns) orders -> length a = length ns -> length b = length ns -> arranged orders a = arranged orders b -> a = b.
Proof.
  intros P A B E. apply (nth_ext _ _ 0 0); [congruence|]. intros i H. assert (O : In i orders) by (apply (Permutation_in _ (Permutation_sym P)), in_seq; lia).
  clear - E O. unfold arranged in E. induction orders; [easy|]. cbn in E. injection E as E1 E2. destruct O as [-> |O]; [exact E1|auto].
Qed.
Lemma arranged_onto ns orders x : storage_order (length ns) orders -> index (arranged orders ns) x -> exists a, index ns a /\ arranged orders a = x.
Proof.
  intros P X. assert (L : length orders = length ns) by (apply Permutation_length in P; now rewrite seq_length in P).
  assert (D : NoDup orders) by (apply (Permutation_NoDup (Permutation_sym P)), seq_NoDup).
  assert (LX : length x = length orders) by (apply Forall2_length in X; unfold arranged in X; rewrite map_length in X; congruence).
  set (a := map (fun i => nth (position i orders) x 0) (seq 0 (length ns))).
  assert (AE : arranged orders a = x).
  { unfold arranged. rewrite (map_nth_seq _ 0%nat orders). rewrite (map_ext_in _ (fun p => nth p x 0)).
    - rewrite <- LX. rewrite <- (map_id x) at 2. rewrite (map_nth_seq (fun z => z) 0 x). reflexivity.
    - intros p H. apply in_seq in H. assert (Q : (nth p orders 0 < length ns)%nat) by (assert (I : In (nth p orders 0%nat) orders) by (apply nth_In; lia); apply (Permutation_in _ P), in_seq in I; lia).
      unfold a. rewrite nth_map_seq by exact Q. rewrite position_nth by (try exact D; lia). reflexivity. }
  exists a. split; [|exact AE].
  assert (G : forall i, (i < length ns)%nat -> 0 <= nth i a 0 < nth i ns 0).
  { intros i H. assert (O : In i orders) by (apply (Permutation_in _ (Permutation_sym P)), in_seq; lia). rewrite <- AE in X. unfold arranged in X. clear AE. clearbody a. clear - X O.
    induction orders as [|o l IH]; [easy|]. cbn in X. inversion X; subst. destruct O as [-> |O]; [assumption|apply IH; assumption]. }
  assert (LA : length a = length ns) by (unfold a; now rewrite map_length, seq_length). clearbody a. clear - G LA. revert a G LA. induction ns as [|n ns IH]; intros [|d a] G LA; try discriminate; [constructor|].
  constructor; [apply (G 0%nat); cbn; lia|]. apply IH; [|cbn in LA; lia]. intros i H. apply (G (S i)). cbn. lia.
Qed.
Lemma product_perm l m : Permutation l m -> product l = product m.
Proof. induction 1; cbn; [reflexivity|unfold product in *; lia|lia|congruence]. Qed.
Lemma product_arranged ns orders : storage_order (length ns) orders -> product (arranged orders ns) = extent ns.
Proof.
  intros P. change (extent ns) with (product ns). unfold arranged. rewrite (product_perm _ _ (Permutation_map _ P)). f_equal. rewrite <- (map_id ns) at 2. now rewrite (map_nth_seq (fun z => z) 0 ns).
Qed.
