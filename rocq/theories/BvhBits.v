(** Common prefixes of sorted codes; the searches of build_topo. *)
From Verif Require Import Prelude BvhModel.
Open Scope Z_scope.

Lemma lxor_range a b : 0 <= a < 2 ^ 32 -> 0 <= b < 2 ^ 32 -> 0 <= Z.lxor a b < 2 ^ 32.
Proof.
  intros Ha Hb. assert (H0 : 0 <= Z.lxor a b) by (apply Z.lxor_nonneg; lia). split; [exact H0|]. destruct (Z.eq_dec (Z.lxor a b) 0) as [->|N]; [lia|].
  apply Z.log2_lt_pow2; [lia|]. pose proof (Z.log2_lxor a b ltac:(lia) ltac:(lia)) as L. destruct (Z.eq_dec a 0) as [->|Na].
  - rewrite Z.lxor_0_l in *. apply Z.log2_lt_pow2; lia.
  - destruct (Z.eq_dec b 0) as [->|Nb]; [rewrite Z.lxor_0_r in *; apply Z.log2_lt_pow2; lia|].
    assert (Z.log2 a < 32) by (apply Z.log2_lt_pow2; lia). assert (Z.log2 b < 32) by (apply Z.log2_lt_pow2; lia). lia.
Qed.
Lemma clz_range x : 0 <= x < 2 ^ 32 -> 0 <= clz x <= 32.
Proof.
  intro H. unfold clz. destruct (Z.eqb_spec x 0); [lia|]. pose proof (Z.log2_nonneg x). assert (Z.log2 x < 32) by (apply Z.log2_lt_pow2; lia). lia.
Qed.
Lemma clz_32 x : 0 <= x < 2 ^ 32 -> (clz x = 32 <-> x = 0).
Proof. intro H. unfold clz. destruct (Z.eqb_spec x 0); [tauto|]. pose proof (Z.log2_nonneg x). lia. Qed.
Lemma clz_shift x m : 0 <= x < 2 ^ 32 -> 0 <= m <= 31 -> (m < clz x <-> Z.shiftr x (31 - m) = 0).
Proof.
  intros H Hm. unfold clz. destruct (Z.eqb_spec x 0) as [->|N]; [rewrite Z.shiftr_0_l; lia|]. rewrite Z.shiftr_eq_0_iff by lia. lia.
Qed.
Lemma prefix a b m : 0 <= a < 2 ^ 32 -> 0 <= b < 2 ^ 32 -> 0 <= m <= 31 -> (m < clz (Z.lxor a b) <-> a / 2 ^ (31 - m) = b / 2 ^ (31 - m)).
Proof.
  intros Ha Hb Hm. rewrite clz_shift by (auto using lxor_range). rewrite Z.shiftr_lxor, Z.lxor_eq_0_iff, !Z.shiftr_div_pow2 by lia. reflexivity.
Qed.

Section Codes.
Variable N : Z.
Variable cf : Z -> Z.
Hypothesis rng : forall i, 0 <= i < N -> 0 <= cf i < 2 ^ 32.
Hypothesis srt : forall i j, 0 <= i -> i <= j -> j < N -> cf i <= cf j.
(** bits shared by neighbours k and k+1 *)
Definition dl (k : Z) : Z := clz (Z.lxor (cf k) (cf (k + 1))).
Lemma dl_range k : 0 <= k < N - 1 -> 0 <= dl k <= 32.
Proof. intro H. apply clz_range. apply lxor_range; apply rng; lia. Qed.
Lemma range_gt i j m : 0 <= i -> i <= j -> j < N -> 0 <= m <= 31 -> (m < clz (Z.lxor (cf i) (cf j)) <-> forall k, i <= k < j -> m < dl k).
Proof.
  intros Hi Hij Hj Hm. rewrite prefix by (try apply rng; lia). assert (P : 0 < 2 ^ (31 - m)) by (apply Z.pow_pos_nonneg; lia). split.
  - intros E k Hk. unfold dl. rewrite prefix by (try apply rng; lia). pose proof (Z.div_le_mono _ _ (2 ^ (31 - m)) P (srt i k Hi ltac:(lia) ltac:(lia))). pose proof (Z.div_le_mono _ _ (2 ^ (31 - m)) P (srt k (k + 1) ltac:(lia) ltac:(lia) ltac:(lia))).
    pose proof (Z.div_le_mono _ _ (2 ^ (31 - m)) P (srt (k + 1) j ltac:(lia) ltac:(lia) ltac:(lia))). lia.
  - intro H. assert (X : forall d, (forall k, i <= k < i + Z.of_nat d -> m < dl k) -> i + Z.of_nat d < N -> cf i / 2 ^ (31 - m) = cf (i + Z.of_nat d) / 2 ^ (31 - m)).
    { induction d as [|d IH]; intros Hd Hn; [f_equal; f_equal; lia|]. rewrite IH by (try (intros; apply Hd); lia). specialize (Hd (i + Z.of_nat d) ltac:(lia)). unfold dl in Hd. rewrite prefix in Hd by (try apply rng; lia). rewrite Hd. f_equal. f_equal. lia. }
    specialize (X (Z.to_nat (j - i))). rewrite Z2Nat.id in X by lia. replace (i + (j - i)) with j in X by lia. apply X; [intros; apply H; lia|lia].
Qed.
(** between two gaps sharing the same prefix length there is a gap sharing less *)
Lemma gap_unique k1 k2 : 0 <= k1 -> k1 < k2 -> k2 < N - 1 -> dl k1 = dl k2 -> dl k1 < 32 -> exists k, k1 < k < k2 /\ dl k < dl k1.
Proof.
  intros H1 H12 H2 E L. destruct (Z.eq_dec (dl k1) 0) as [E0|E0].
  - (* top bit set by k1, nothing left for k2 *)
    exfalso. pose proof (range_gt k1 (k1 + 1) 0 H1 ltac:(lia) ltac:(lia) ltac:(lia)) as A. pose proof (range_gt k2 (k2 + 1) 0 ltac:(lia) ltac:(lia) ltac:(lia) ltac:(lia)) as B.
    rewrite prefix in A, B by (try apply rng; lia). change (31 - 0) with 31 in *.
    assert (Na : cf k1 / 2 ^ 31 <> cf (k1 + 1) / 2 ^ 31) by (intro X; pose proof (proj1 A X k1 ltac:(lia)); lia).
    assert (Nb : cf k2 / 2 ^ 31 <> cf (k2 + 1) / 2 ^ 31) by (intro X; pose proof (proj1 B X k2 ltac:(lia)); lia).
    pose proof (Z.div_le_mono _ _ (2 ^ 31) ltac:(lia) (srt k1 (k1 + 1) ltac:(lia) ltac:(lia) ltac:(lia))). pose proof (Z.div_le_mono _ _ (2 ^ 31) ltac:(lia) (srt (k1 + 1) k2 ltac:(lia) ltac:(lia) ltac:(lia))).
    pose proof (Z.div_le_mono _ _ (2 ^ 31) ltac:(lia) (srt k2 (k2 + 1) ltac:(lia) ltac:(lia) ltac:(lia))).
    assert (0 <= cf k1 / 2 ^ 31) by (apply Z.div_pos; [apply rng|]; lia). assert (cf (k2 + 1) / 2 ^ 31 < 2) by (apply Z.div_lt_upper_bound; [lia|]; pose proof (rng (k2 + 1) ltac:(lia)); lia). lia.
  - pose proof (dl_range k1 ltac:(lia)) as Rg. set (p := dl k1) in *.
    assert (D : (exists k, k1 < k < k2 /\ dl k < p) \/ forall k, k1 < k < k2 -> p <= dl k).
    { assert (X : forall d, (exists k, k1 < k < k1 + 1 + Z.of_nat d /\ dl k < p) \/ forall k, k1 < k < k1 + 1 + Z.of_nat d -> p <= dl k).
      { induction d as [|d IH]; [right; intros; lia|]. destruct IH as [(k & Hk & Hd)|IH]; [left; exists k; split; [lia|exact Hd]|].
        destruct (Z_lt_le_dec (dl (k1 + 1 + Z.of_nat d)) p) as [Y|Y]; [left; exists (k1 + 1 + Z.of_nat d); split; [lia|exact Y]|]. right. intros k Hk. destruct (Z.eq_dec k (k1 + 1 + Z.of_nat d)) as [->|]; [exact Y|apply IH; lia]. }
      specialize (X (Z.to_nat (k2 - k1 - 1))). rewrite Z2Nat.id in X by lia. replace (k1 + 1 + (k2 - k1 - 1)) with k2 in X by lia. exact X. }
    destruct D as [D|D]; [exact D|]. exfalso.
    (* all of k1 .. k2+1 share p - 1 + 1 = p bits, k1 | k1+1 and k2 | k2+1 differ in the next one *)
    assert (A : cf k1 / 2 ^ (31 - (p - 1)) = cf (k2 + 1) / 2 ^ (31 - (p - 1))).
    { apply prefix; [apply rng; lia|apply rng; lia|lia|]. apply (range_gt k1 (k2 + 1) (p - 1)); try lia. intros k Hk. destruct (Z.eq_dec k k1) as [->|]; [fold p; lia|]. destruct (Z.eq_dec k k2) as [->|]; [lia|]. specialize (D k ltac:(lia)). lia. }
    assert (Na : cf k1 / 2 ^ (31 - p) <> cf (k1 + 1) / 2 ^ (31 - p)) by (intro X; apply prefix in X; [unfold p, dl in X; lia|apply rng; lia|apply rng; lia|lia]).
    assert (Nb : cf k2 / 2 ^ (31 - p) <> cf (k2 + 1) / 2 ^ (31 - p)) by (intro X; apply prefix in X; [fold (dl k2) in X; lia|apply rng; lia|apply rng; lia|lia]).
    assert (P : 0 < 2 ^ (31 - p)) by (apply Z.pow_pos_nonneg; lia).
    pose proof (Z.div_le_mono _ _ (2 ^ (31 - p)) P (srt k1 (k1 + 1) ltac:(lia) ltac:(lia) ltac:(lia))). pose proof (Z.div_le_mono _ _ (2 ^ (31 - p)) P (srt (k1 + 1) k2 ltac:(lia) ltac:(lia) ltac:(lia))).
    pose proof (Z.div_le_mono _ _ (2 ^ (31 - p)) P (srt k2 (k2 + 1) ltac:(lia) ltac:(lia) ltac:(lia))).
    replace (31 - (p - 1)) with (31 - p + 1) in A by lia. rewrite Z.pow_add_r in A by lia. change (2 ^ 1) with 2 in A. rewrite <- !Z.div_div in A by lia.
    set (x := cf k1 / 2 ^ (31 - p)) in *. set (y := cf (k2 + 1) / 2 ^ (31 - p)) in *. assert (x + 2 <= y) by lia. pose proof (Z.div_le_mono (x + 2) y 2 ltac:(lia) ltac:(lia)) as Q. change (x + 2) with (x + 1 * 2) in Q. rewrite (Z.div_add x 1 2) in Q by lia. lia.
Qed.
End Codes.

Section Search.
Variables (mcs : list Z) (left dir minLZ cur t : Z).
Definition hits (x : Z) : Prop :=
  let right := left + x * dir in
  if (right <? n mcs) && (0 <=? right) then exists c, code mcs right = Some c /\ (minLZ <? clz (Z.lxor c cur)) = (x <=? t) else t < x.
Lemma bin_len_ok : forall e f len, (e < f)%nat -> (forall x, 1 <= x -> hits x) -> 0 <= len -> len <= t < len + 2 ^ Z.of_nat e ->
  bin_len mcs f left dir minLZ cur len (match e with O => 0 | S e' => 2 ^ Z.of_nat e' end) = Some t.
Proof.
  induction e as [|e IH]; intros f len Hf Hh H0 Ht; (destruct f as [|f]; [lia|]); cbn [bin_len].
  - assert (len = t) as -> by (change (2 ^ Z.of_nat 0) with 1 in Ht; lia). reflexivity.
  - assert (P : 1 <= 2 ^ Z.of_nat e) by (pose proof (Z.pow_pos_nonneg 2 (Z.of_nat e)); lia). destruct (Z.leb_spec 1 (2 ^ Z.of_nat e)); [|lia].
    assert (Hd : 2 ^ Z.of_nat e / 2 = match e with O => 0 | S e' => 2 ^ Z.of_nat e' end).
    { destruct e as [|e]; [reflexivity|]. rewrite Nat2Z.inj_succ, Z.pow_succ_r by lia. rewrite Z.mul_comm, Z.div_mul by lia. reflexivity. }
    rewrite Hd. rewrite Nat2Z.inj_succ, Z.pow_succ_r in Ht by lia. specialize (Hh (len + 2 ^ Z.of_nat e) ltac:(lia)) as Hx. unfold hits in Hx. cbv zeta in Hx.
    destruct ((left + (len + 2 ^ Z.of_nat e) * dir <? n mcs) && (0 <=? left + (len + 2 ^ Z.of_nat e) * dir)).
    + destruct Hx as (c & -> & E). cbn [obind]. rewrite E. destruct (Z.leb_spec (len + 2 ^ Z.of_nat e) t); apply IH; auto; lia.
    + apply IH; auto; lia.
Qed.
Lemma exp_step_ok : forall f e, (forall x, 1 <= x -> hits x) -> t < 2 ^ (Z.of_nat e + Z.of_nat f) ->
  exists e', (e <= e')%nat /\ exp_step mcs (S f) left dir minLZ cur (2 ^ Z.of_nat e) = Some (2 ^ Z.of_nat e') /\ t < 2 ^ Z.of_nat e' /\ (e' = e \/ 2 ^ (Z.of_nat e' - 1) <= t).
Proof.
  induction f as [|f IH]; intros e Hh Ht; cbn [exp_step]; assert (P : 1 <= 2 ^ Z.of_nat e) by (pose proof (Z.pow_pos_nonneg 2 (Z.of_nat e)); lia);
    specialize (Hh (2 ^ Z.of_nat e) P) as Hx; unfold hits in Hx; cbv zeta in Hx; destruct ((left + 2 ^ Z.of_nat e * dir <? n mcs) && (0 <=? left + 2 ^ Z.of_nat e * dir)); try (destruct Hx as (c & -> & E); cbn [obind]; rewrite E).
  - replace (Z.of_nat e + Z.of_nat 0) with (Z.of_nat e) in Ht by lia. destruct (Z.leb_spec (2 ^ Z.of_nat e) t); [lia|]. exists e. auto.
  - exists e. auto.
  - destruct (Z.leb_spec (2 ^ Z.of_nat e) t) as [L|L]; [|exists e; auto].
    replace (2 * 2 ^ Z.of_nat e) with (2 ^ Z.of_nat (S e)) by (rewrite Nat2Z.inj_succ, Z.pow_succ_r by lia; reflexivity).
    destruct (IH (S e) Hh) as (e' & He & R & A & B); [replace (Z.of_nat (S e) + Z.of_nat f) with (Z.of_nat e + Z.of_nat (S f)) by lia; exact Ht|]. exists e'. split; [lia|]. split; [exact R|]. split; [exact A|].
    destruct B as [->|B]; [|auto]. right. replace (Z.of_nat (S e) - 1) with (Z.of_nat e) by lia. exact L.
  - exists e. auto.
Qed.
(** the two loops together find t *)
Lemma search_ok : (forall x, 1 <= x -> hits x) -> 1 <= t < n mcs -> exists step, exp_step mcs (fuel mcs) left dir minLZ cur 2 = Some step /\ bin_len mcs (fuel mcs) left dir minLZ cur 0 (step / 2) = Some t.
Proof.
  intros Hh Ht. assert (En : n mcs = Z.of_nat (length mcs)) by reflexivity.
  assert (B : forall k, Z.of_nat k < 2 ^ Z.of_nat k) by (intro k; apply Z.pow_gt_lin_r; lia).
  destruct (exp_step_ok (S (length mcs)) 1 Hh) as (e & He & R & A & C).
  { specialize (B (1 + S (length mcs))%nat). rewrite Nat2Z.inj_add in B. lia. }
  exists (2 ^ Z.of_nat e). split; [exact R|]. destruct e as [|e]; [lia|]. rewrite Nat2Z.inj_succ, Z.pow_succ_r in * by lia. rewrite Z.mul_comm, Z.div_mul by lia.
  apply (bin_len_ok (S e) (fuel mcs) 0); [|exact Hh|lia|rewrite Nat2Z.inj_succ, Z.pow_succ_r by lia; lia].
  unfold fuel. destruct C as [C|C]; [lia|]. replace (Z.succ (Z.of_nat e) - 1) with (Z.of_nat e) in C by lia. specialize (B e). lia.
Qed.
End Search.

Lemma split_loop_ok mcs i lCode LZ t : 0 <= i -> i + t < numTrunk mcs ->
  (forall x, 1 <= x -> i + x <= numTrunk mcs -> exists c, code mcs (i + x) = Some c /\ (LZ <? clz (Z.lxor c lCode)) = (x <=? t)) ->
  forall f step len, 1 <= step -> (Z.to_nat step <= f)%nat -> 0 <= len -> len <= t <= len + 2 * step - 1 -> split_loop mcs f i lCode LZ step len = Some t.
Proof.
  intros Hi Ht Hh f. induction f as [|f IH]; intros step len Hs Hf Hl Hr; [lia|]. cbn [split_loop].
  assert (Q : 1 <= step -> step <> 1 -> 1 <= (step + 1) / 2 < step /\ step <= 2 * ((step + 1) / 2)) by (intros; dmlia).
  destruct (Z.ltb_spec (numTrunk mcs) (i + len + step)) as [L|L].
  - destruct (Z.eq_dec step 1) as [->|N]; [lia|]. specialize (Q Hs N). apply IH; lia.
  - destruct (Hh (len + step) ltac:(lia) ltac:(lia)) as (c & Hc & E). rewrite Z.add_assoc in Hc. rewrite Hc. cbn [obind]. rewrite E.
    destruct (Z.leb_spec step 1) as [S1|S1].
    + assert (step = 1) as -> by lia. destruct (Z.leb_spec (len + 1) t); f_equal; lia.
    + specialize (Q Hs ltac:(lia)). destruct (Z.leb_spec (len + step) t); apply IH; lia.
Qed.
