From Verif Require Import Prelude SortModel CountModel SpmModel SpmSpec.

Section P.
Context {V : Type}.
Notation csr := (@csr V).
Implicit Type m : csr.
Notation P m o := (nth o (ptrs m) 0).
Notation I m k := (nth k (inds m) 0).

Lemma in_cells m i j k : stored m i j k <-> exists o, o < outer m /\ P m o <= k < P m (S o) /\ coord m o (I m k) = (i, j).
Proof.
  unfold stored, cells. rewrite in_flat_map. split.
  - intros (o & Ho & H). apply in_seq in Ho. apply in_map_iff in H as (k' & E & Hk). inversion E; subst. apply in_seq in Hk. exists o. split; [lia|]. split; [lia|]. congruence.
  - intros (o & Ho & Hk & E). exists o. split; [apply in_seq; lia|]. apply in_map_iff. exists k. split; [rewrite E; reflexivity|]. apply in_seq. lia.
Qed.
Lemma ptrs_mono m : wf_topo m -> forall a b, a <= b -> b <= outer m -> P m a <= P m b.
Proof.
  intros (_ & _ & M & _) a b. induction 1 as [|b H IH]; intro Hb; [lia|]. etransitivity; [apply IH; lia|]. apply M. lia.
Qed.
Lemma ptrs_le m o : wf_topo m -> o <= outer m -> P m o <= length (inds m).
Proof. intros W H. destruct W as (A & B & C & D & E). rewrite <- D. apply ptrs_mono; [repeat split; assumption|lia|lia]. Qed.
Definition oi m (i j : nat) : nat := if rm m then i else j.
Definition ii m (i j : nat) : nat := if rm m then j else i.
Lemma stored_at m i j k : stored m i j k <-> oi m i j < outer m /\ P m (oi m i j) <= k < P m (S (oi m i j)) /\ I m k = ii m i j.
Proof.
  rewrite in_cells. unfold coord, oi, ii. destruct (rm m) eqn:R.
  - split; [intros (o & A & B & C); inversion C; subst; auto|intros (A & B & C); exists i; rewrite C; auto].
  - split; [intros (o & A & B & C); inversion C; subst; auto|intros (A & B & C); exists j; rewrite C; auto].
Qed.
Lemma oi_lt m i j : i < nrows m -> j < ncols m -> oi m i j < outer m.
Proof. unfold oi, outer. destruct (rm m); auto. Qed.
Lemma bounds_ok m i j : wf_topo m -> i < nrows m -> j < ncols m -> bounds m i j = Some (P m (oi m i j), P m (S (oi m i j)), ii m i j).
Proof.
  intros (A & _) Hi Hj. pose proof (oi_lt m i j Hi Hj) as Ho. unfold bounds. fold (oi m i j). fold (ii m i j).
  rewrite (nth_error_nth' _ 0) by lia. cbn [bind]. rewrite (nth_error_nth' _ 0) by lia. reflexivity.
Qed.
Lemma scan_ok m target ed : ed <= length (inds m) -> forall fuel off, ed - off <= fuel -> off <= ed ->
  exists r, scan_row fuel m off ed target = Some r /\ off <= r <= ed /\ (forall k, off <= k < r -> I m k <> target) /\ (r < ed -> I m r = target).
Proof.
  intros L. induction fuel as [|f IH]; intros off Hf Ho; cbn [scan_row].
  - destruct (Nat.eqb_spec off ed) as [->|]; [|lia]. exists ed. repeat split; try lia.
  - destruct (Nat.eqb_spec off ed) as [->|N]; [exists ed; repeat split; try lia|].
    rewrite (nth_error_nth' _ 0) by lia. cbn [bind]. destruct (Nat.eqb_spec (I m off) target) as [E|E].
    + exists off. repeat split; try lia.
    + destruct (IH (S off)) as (r & E1 & A & B & C); [lia|lia|]. exists r. split; [exact E1|]. split; [lia|]. split; [|exact C]. intros k Hk. destruct (Nat.eq_dec k off) as [->|]; [exact E|apply B; lia].
Qed.
Lemma locate_ok m i j : wf_topo m -> i < nrows m -> j < ncols m ->
  exists r, locate m i j = Some r /\ match r with Some k => stored m i j k | None => forall k, ~ stored m i j k end.
Proof.
  intros W Hi Hj. pose proof (oi_lt m i j Hi Hj) as Ho. pose proof (ptrs_le m (S (oi m i j)) W ltac:(lia)) as L. pose proof W as (_ & _ & M & _). specialize (M _ Ho).
  unfold locate. rewrite bounds_ok by assumption. cbn [bind].
  destruct (scan_ok m (ii m i j) (P m (S (oi m i j))) L (length (inds m)) (P m (oi m i j))) as (r & E & A & B & C); [lia|lia|]. rewrite E. cbn [bind].
  eexists. split; [reflexivity|]. destruct (Nat.eqb_spec r (P m (S (oi m i j)))) as [Er|Er].
  - intros k Hk. apply stored_at in Hk as (_ & H1 & H2). apply (B k); [lia|exact H2].
  - apply stored_at. split; [exact Ho|]. split; [lia|]. apply C. lia.
Qed.
Lemma get_ok zero m i j : wf m -> i < nrows m -> j < ncols m ->
  exists v, get zero m i j = Some v /\ ((exists k, stored m i j k /\ nth_error (vals m) k = Some v) \/ ((forall k, ~ stored m i j k) /\ v = zero)).
Proof.
  intros [W Lv] Hi Hj. pose proof (oi_lt m i j Hi Hj) as Ho. pose proof (ptrs_le m (S (oi m i j)) W ltac:(lia)) as L. pose proof W as (_ & _ & M & _). specialize (M _ Ho).
  unfold get. rewrite bounds_ok by assumption. cbn [bind].
  destruct (scan_ok m (ii m i j) (P m (S (oi m i j))) L (length (inds m)) (P m (oi m i j))) as (r & E & A & B & C); [lia|lia|]. rewrite E. cbn [bind].
  destruct (Nat.eqb_spec r (P m (S (oi m i j)))) as [Er|Er].
  - exists zero. split; [reflexivity|]. right. split; [|reflexivity]. intros k Hk. apply stored_at in Hk as (_ & H1 & H2). apply (B k); [lia|exact H2].
  - destruct (nth_error_lt_some (vals m) r) as [v Hv]; [lia|]. exists v. split; [exact Hv|]. left. exists r. split; [|exact Hv]. apply stored_at. split; [exact Ho|]. split; [lia|]. apply C. lia.
Qed.

(** binary search *)
Lemma bsearch_ok M m s e target : (Z.of_nat (length (inds m)) < M)%Z -> e <= length (inds m) ->
  (forall k k', s <= k -> k <= k' -> k' < e -> I m k <= I m k') -> (0 < s \/ s < e /\ I m s <= target) ->
  forall fuel a b, s <= a -> b <= e -> a <= b -> b - a < fuel -> (0 < b) ->
  (forall k, s <= k < a -> I m k < target) -> (forall k, b <= k < e -> target < I m k) ->
  exists r st ed, bsearch fuel M m (Z.of_nat a) (Z.of_nat b - 1) target = Some (r, st, ed) /\
    match r with Some z => (st <= ed)%Z /\ (Z.of_nat s <= z < Z.of_nat e)%Z /\ I m (Z.to_nat z) = target | None => (ed < st)%Z /\ forall k, s <= k < e -> I m k <> target end.
Proof.
  intros HM He Hs Hc. induction fuel as [|f IH]; intros a b Ha Hb Hab Hf Hb0 Lo Hi; [lia|]. cbn [bsearch].
  destruct (Z.ltb_spec (Z.of_nat b - 1) (Z.of_nat a)) as [C|C].
  - exists None. do 2 eexists. split; [reflexivity|]. split; [lia|]. intros k Hk E. destruct (Nat.lt_ge_cases k a) as [D|D]; [specialize (Lo k ltac:(lia)); lia|specialize (Hi k ltac:(lia)); lia].
  - set (mid := a + (b - 1 - a) / 2). assert (Hmid : a <= mid < b). { unfold mid. pose proof (Nat.div_le_upper_bound (b - 1 - a) 2 (b - 1 - a) ltac:(lia) ltac:(lia)). lia. }
    assert (Em : ((Z.of_nat a + (Z.of_nat b - 1 - Z.of_nat a) / 2) mod M = Z.of_nat mid)%Z).
    { replace (Z.of_nat a + (Z.of_nat b - 1 - Z.of_nat a) / 2)%Z with (Z.of_nat mid); [apply Z.mod_small; lia|]. unfold mid. rewrite Nat2Z.inj_add, Nat2Z.inj_div. f_equal. f_equal. lia. }
    rewrite Em, Nat2Z.id. rewrite (nth_error_nth' _ 0) by lia. cbn [bind]. destruct (Nat.eqb_spec target (I m mid)) as [E|E].
    + do 3 eexists. split; [reflexivity|]. cbn. rewrite Nat2Z.id. repeat split; try lia.
    + destruct (Nat.ltb_spec target (I m mid)) as [D|D].
      * assert (Hm0 : 0 < mid). { destruct Hc as [Hc|[Hc1 Hc2]]; [lia|]. destruct (Nat.eq_dec mid 0) as [Z|]; [|lia]. assert (s = mid) by lia. subst s. lia. }
        rewrite Z.mod_small by lia. apply (IH a mid); auto; try lia. intros k Hk. specialize (Hs mid k ltac:(lia) ltac:(lia) ltac:(lia)). lia.
      * rewrite Z.mod_small by lia. replace (Z.of_nat mid + 1)%Z with (Z.of_nat (S mid)) by lia. apply (IH (S mid) b); auto; try lia. intros k Hk. specialize (Hs k mid ltac:(lia) ltac:(lia) ltac:(lia)). lia.
Qed.
(** the rows on which the search is safe: not starting at position 0, or having a first entry not after the target *)
Definition safe_row m (i j : nat) : Prop := 0 < P m (oi m i j) \/ P m (oi m i j) < P m (S (oi m i j)) /\ I m (P m (oi m i j)) <= ii m i j.
Lemma bounds_b_ok M m i j : wf_topo m -> (Z.of_nat (length (inds m)) < M)%Z -> i < nrows m -> j < ncols m -> safe_row m i j ->
  bounds_b M m i j = Some (Z.of_nat (P m (oi m i j)), (Z.of_nat (P m (S (oi m i j))) - 1)%Z, ii m i j).
Proof.
  intros W HM Hi Hj Hs. pose proof (oi_lt m i j Hi Hj) as Ho. pose proof (ptrs_le m (S (oi m i j)) W ltac:(lia)) as L. pose proof W as (_ & _ & Mo & _). specialize (Mo _ Ho).
  unfold bounds_b. rewrite bounds_ok by assumption. cbn [bind]. rewrite Z.mod_small; [reflexivity|]. unfold safe_row in Hs. lia.
Qed.
Lemma locate_b_ok M m i j : wf_topo m -> ordered m -> (Z.of_nat (length (inds m)) < M)%Z -> i < nrows m -> j < ncols m -> safe_row m i j ->
  exists r, locate_b M m i j = Some r /\ exist_b M m i j = Some (match r with Some _ => true | None => false end) /\
    match r with Some z => stored m i j (Z.to_nat z) /\ (0 <= z)%Z | None => forall k, ~ stored m i j k end.
Proof.
  intros W O HM Hi Hj Hs. pose proof (oi_lt m i j Hi Hj) as Ho. pose proof (ptrs_le m (S (oi m i j)) W ltac:(lia)) as L. pose proof W as (_ & _ & Mo & _). specialize (Mo _ Ho).
  unfold locate_b, exist_b. rewrite bounds_b_ok by assumption. cbn [bind].
  destruct (bsearch_ok M m (P m (oi m i j)) (P m (S (oi m i j))) (ii m i j) HM L) with (fuel := S (length (inds m))) (a := P m (oi m i j)) (b := P m (S (oi m i j))) as (r & st & ed & E & H); try lia.
  - intros k k'. intros. apply (O (oi m i j)); auto.
  - exact Hs.
  - unfold safe_row in Hs. lia.
  - rewrite E. cbn [bind]. exists r. split; [reflexivity|]. destruct r as [z|].
    + destruct H as (A & B & C). split; [rewrite (proj2 (Z.leb_le _ _) A); reflexivity|]. split; [|lia]. apply stored_at. split; [exact Ho|]. split; [lia|exact C].
    + destruct H as (A & B). split; [f_equal; apply Z.leb_gt; exact A|]. intros k Hk. apply stored_at in Hk as (_ & H1 & H2). apply (B k); [lia|exact H2].
Qed.
(** elsewhere the loop wraps the upper end around and reads far outside the array *)
Lemma bsearch_wraps M m i j fuel : wf_topo m -> ordered m -> (2 * Z.of_nat (length (inds m)) + 4 < M)%Z -> i < nrows m -> j < ncols m -> ~ safe_row m i j ->
  bind (bounds_b M m i j) (fun '(st, ed, target) => bsearch fuel M m st ed target) = None.
Proof.
  intros W O HM Hi Hj Hs. pose proof (oi_lt m i j Hi Hj) as Ho. pose proof (ptrs_le m (S (oi m i j)) W ltac:(lia)) as L. pose proof W as (_ & _ & Mo & _). specialize (Mo _ Ho).
  unfold safe_row in Hs. assert (P0 : P m (oi m i j) = 0) by lia. assert (Hf : P m (S (oi m i j)) = 0 \/ ii m i j < I m 0) by (rewrite P0 in Hs; lia).
  unfold bounds_b. rewrite bounds_ok by assumption. cbn [bind]. rewrite P0. set (e := P m (S (oi m i j))) in *. set (target := ii m i j) in *.
  assert (Far : forall fuel, bsearch fuel M m 0 (M - 1) target = None).
  { intros [|f]; cbn [bsearch]; destruct (Z.ltb_spec (M - 1) 0); try lia; [reflexivity|]. rewrite Z.mod_small by dmlia.
    rewrite (proj2 (nth_error_None _ _)); [reflexivity|]. dmlia. }
  destruct (Nat.eq_dec e 0) as [E0|E0].
  { rewrite E0. change (Z.of_nat 0) with 0%Z. replace ((0 - 1) mod M)%Z with (M - 1)%Z; [apply Far|]. apply Z.mod_unique_pos with (q := (-1)%Z); lia. }
  destruct Hf as [|Hf]; [lia|]. rewrite Z.mod_small by lia.
  assert (G : forall fuel b, 0 < b <= e -> bsearch fuel M m 0 (Z.of_nat b - 1) target = None).
  { induction fuel0 as [|f IH]; intros b Hb; cbn [bsearch]; (destruct (Z.ltb_spec (Z.of_nat b - 1) 0); [lia|]); [reflexivity|].
    set (mid := (b - 1) / 2). assert (Hmid : mid < b). { unfold mid. pose proof (Nat.div_le_upper_bound (b - 1) 2 (b - 1) ltac:(lia) ltac:(lia)). lia. }
    assert (Em : ((0 + (Z.of_nat b - 1 - 0) / 2) mod M = Z.of_nat mid)%Z).
    { replace (0 + (Z.of_nat b - 1 - 0) / 2)%Z with (Z.of_nat mid); [apply Z.mod_small; lia|]. unfold mid. rewrite Nat2Z.inj_div. cbn [Z.add]. f_equal. lia. }
    rewrite Em, Nat2Z.id, (nth_error_nth' _ 0) by lia. cbn [bind].
    assert (D : target < I m mid). { pose proof (O (oi m i j) 0 mid Ho ltac:(lia) ltac:(lia) ltac:(unfold e in Hb; lia)). lia. }
    destruct (Nat.eqb_spec target (I m mid)); [lia|]. destruct (Nat.ltb_spec target (I m mid)); [|lia].
    destruct (Nat.eq_dec mid 0) as [->|Hm].
    - change (Z.of_nat 0) with 0%Z. replace ((0 - 1) mod M)%Z with (M - 1)%Z; [apply Far|]. apply Z.mod_unique_pos with (q := (-1)%Z); lia.
    - rewrite Z.mod_small by lia. apply IH. lia. }
  change (Z.of_nat 0) with 0%Z. apply G. lia.
Qed.
End P.
