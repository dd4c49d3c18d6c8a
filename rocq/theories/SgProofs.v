(** Coordinates, blocks and offsets. *)
From Coq Require Import QArith Qround Lqa.
From Verif Require Import Prelude SgModel SgSpec.
Open Scope Z_scope.

Section C.
Variable k : Z.
Hypothesis Hk : 0 <= k.
Notation S := (side k).

Lemma side_pos : 0 < S.
Proof. unfold side. apply Z.pow_pos_nonneg; lia. Qed.
Lemma land_mod x : Z.land x (S - 1) = x mod S.
Proof.
  unfold side. replace (2 ^ k - 1) with (Z.ones k) by (rewrite Z.ones_equiv; lia).
  apply Z.land_ones; assumption.
Qed.
Definition bkey (X : coordT) : coordT := map (fun x => S * (x / S)) X.
Lemma cellid_mod X : cellid k X = map (fun x => x mod S) X.
Proof. apply map_ext. intros. apply land_mod. Qed.
Lemma block_key X : vsub X (cellid k X) = bkey X.
Proof.
  rewrite cellid_mod. unfold vsub, bkey. induction X as [|x X IH]; [reflexivity|].
  cbn [map combine fst snd]. rewrite IH. f_equal. pose proof (Z.div_mod x S). pose proof side_pos. lia.
Qed.
Lemma origin_key X : origin k X = bkey X.
Proof.
  unfold origin, bkey. apply map_ext. intros x. unfold origin_mask.
  rewrite <- Z.ldiff_land. unfold side at 1. replace (2 ^ k - 1) with (Z.ones k) by (rewrite Z.ones_equiv; lia).
  rewrite Z.ldiff_ones_r by assumption. rewrite Z.shiftl_mul_pow2, Z.shiftr_div_pow2 by assumption. unfold side. lia.
Qed.
Lemma bkey_length X : length (bkey X) = length X.
Proof. apply map_length. Qed.
Lemma cellid_length X : length (cellid k X) = length X.
Proof. apply map_length. Qed.
Lemma bkey_same X Y : bkey X = bkey Y <-> same_block S X Y.
Proof.
  pose proof side_pos. unfold same_block. revert Y. induction X as [|x X IH]; intros [|y Y]; cbn; split; intros E; try discriminate; try constructor.
  - inversion E.
  - inversion E.
  - injection E as E1 E2. nia.
  - apply IH. injection E as E1 E2. exact E2.
  - inversion E; subst. f_equal; [congruence|]. apply IH; assumption.
Qed.
Lemma bkey_idem X : bkey (bkey X) = bkey X.
Proof.
  unfold bkey. rewrite map_map. apply map_ext. intros x. pose proof side_pos.
  rewrite Z.mul_comm with (n := S) (m := x / S) at 1. rewrite Z.div_mul by lia. reflexivity.
Qed.
Lemma cellid_local X : local_coord S (length X) (cellid k X).
Proof.
  split; [apply cellid_length|]. rewrite cellid_mod. apply Forall_forall. intros y Hy.
  apply in_map_iff in Hy as (x & <- & _). apply Z.mod_pos_bound, side_pos.
Qed.
Lemma add_back X : vadd (bkey X) (cellid k X) = X.
Proof.
  rewrite cellid_mod. unfold vadd, bkey. induction X as [|x X IH]; [reflexivity|].
  cbn [map combine fst snd]. rewrite IH. f_equal. pose proof (Z.div_mod x S). pose proof side_pos. lia.
Qed.
Lemma X_det X Y : bkey X = bkey Y -> cellid k X = cellid k Y -> X = Y.
Proof. intros A B. rewrite <- (add_back X), <- (add_back Y), A, B. reflexivity. Qed.
(** aligned key plus local coordinate *)
Lemma split_sum key c n : bkey key = key -> length key = n -> local_coord S n c ->
  bkey (vadd key c) = key /\ cellid k (vadd key c) = c /\ length (vadd key c) = n.
Proof.
  rewrite cellid_mod. intros A L [Lc F]. revert key n A L Lc. pose proof side_pos as P.
  induction F as [|x c Hx F IH]; intros [|y key] n A L Lc; cbn in *; try lia.
  - subst; auto.
  - injection A as A1 A2. destruct (IH key (length key) A2) as (B1 & B2 & B3); [reflexivity|lia|].
    assert (D : (y + x) / S = y / S).
    { rewrite <- A1 at 1. rewrite Z.mul_comm, Z.div_add_l by lia. rewrite (Z.div_small x S) by lia. lia. }
    assert (M : (y + x) mod S = x).
    { rewrite <- A1. rewrite Z.mul_comm, Z.add_comm, Z_mod_plus_full. apply Z.mod_small; lia. }
    fold (vadd key c). fold (bkey (vadd key c)). rewrite B1, B2, B3, D, M. repeat split; lia || congruence.
Qed.

(** Horner's scheme *)
Definition horner (c : coordT) (a : Z) : Z := fold_left (fun ret cd => ret * S + cd) c a.
Lemma to_offset_horner c : local_coord_to_offset k c = horner c 0.
Proof. destruct c; reflexivity. Qed.
Lemma horner_split c a : horner c a = a * S ^ Z.of_nat (length c) + horner c 0.
Proof.
  revert a. induction c as [|x c IH]; intros a; [cbn; lia|].
  change (horner (x :: c) a) with (horner c (a * S + x)). change (horner (x :: c) 0) with (horner c (0 * S + x)).
  rewrite IH, (IH (0 * S + x)). cbn [length].
  replace (Z.of_nat (Datatypes.S (length c))) with (1 + Z.of_nat (length c)) by lia.
  rewrite Z.pow_add_r by lia. rewrite Z.pow_1_r. ring.
Qed.
Lemma horner_range c : Forall (fun x => 0 <= x < S) c -> 0 <= horner c 0 < S ^ Z.of_nat (length c).
Proof.
  pose proof side_pos as P. induction 1 as [|x c Hx F IH]; [cbn; lia|].
  change (horner (x :: c) 0) with (horner c (0 * S + x)). rewrite horner_split.
  cbn [length]. replace (Z.of_nat (Datatypes.S (length c))) with (1 + Z.of_nat (length c)) by lia.
  rewrite Z.pow_add_r by lia. rewrite Z.pow_1_r. nia.
Qed.
Lemma horner_inj c d : length c = length d -> Forall (fun x => 0 <= x < S) c -> Forall (fun x => 0 <= x < S) d ->
  horner c 0 = horner d 0 -> c = d.
Proof.
  pose proof side_pos as P. intros L F. revert d L. induction F as [|x c Hx F IH]; intros [|y d] L G E; try discriminate; [reflexivity|].
  inversion G as [|? ? Hy G']; subst. injection L as L.
  change (horner (x :: c) 0) with (horner c (0 * S + x)) in E. change (horner (y :: d) 0) with (horner d (0 * S + y)) in E.
  rewrite horner_split, (horner_split d) in E. rewrite L in E.
  pose proof (horner_range _ F) as R1. pose proof (horner_range _ G') as R2. rewrite L in R1.
  assert (x = y) by nia. subst y. f_equal. apply IH; auto. lia.
Qed.
Lemma digits_spec d : forall off ret, 0 <= off < S ^ Z.of_nat d -> Forall (fun x => 0 <= x < S) ret ->
  let c := offset_digits k d off ret in
  length c = (d + length ret)%nat /\ Forall (fun x => 0 <= x < S) c /\
  horner c 0 = off * S ^ Z.of_nat (length ret) + horner ret 0.
Proof.
  pose proof side_pos as P. induction d as [|d IH]; intros off ret R F; cbn [offset_digits].
  - cbn in R. split; [reflexivity|]. split; [assumption|]. assert (off = 0) by lia. subst. lia.
  - replace (Z.of_nat (Datatypes.S d)) with (1 + Z.of_nat d) in R by lia. rewrite Z.pow_add_r, Z.pow_1_r in R by lia.
    rewrite Z.quot_div_nonneg, Z.rem_mod_nonneg by lia.
    destruct (IH (off / S) (off mod S :: ret)) as (A & B & C).
    + split; [apply Z.div_pos; lia|]. apply Z.div_lt_upper_bound; lia.
    + constructor; [apply Z.mod_pos_bound; lia|assumption].
    + cbn [length] in A. split; [lia|]. split; [assumption|]. cbv zeta in C. rewrite C.
      change (horner (off mod S :: ret) 0) with (horner ret (0 * S + off mod S)). rewrite horner_split.
      cbn [length]. replace (Z.of_nat (Datatypes.S (length ret))) with (1 + Z.of_nat (length ret)) by lia.
      rewrite Z.pow_add_r, Z.pow_1_r by lia. pose proof (Z.div_mod off S).
      replace (0 * S + off mod S) with (off mod S) by lia. 
      transitivity ((S * (off / S) + off mod S) * S ^ Z.of_nat (length ret) + horner ret 0); [ring|]. rewrite <- H by lia. reflexivity.
Qed.
Lemma offset_coord dim off : 0 <= off < block_size k dim ->
  local_coord S dim (local_offset_to_coord k dim off) /\ local_coord_to_offset k (local_offset_to_coord k dim off) = off.
Proof.
  intros R. destruct (digits_spec dim off [] R) as (A & B & C); [constructor|].
  cbv zeta in C. rewrite to_offset_horner. unfold local_offset_to_coord. cbn in A, C. unfold local_coord. rewrite Nat.add_0_r in A. split; [auto|]. rewrite C. unfold horner; cbn. lia.
Qed.
Lemma coord_offset dim c : local_coord S dim c ->
  0 <= local_coord_to_offset k c < block_size k dim /\ local_offset_to_coord k dim (local_coord_to_offset k c) = c.
Proof.
  intros [L F]. pose proof (horner_range _ F) as R. rewrite L in R. rewrite to_offset_horner. split; [exact R|].
  destruct (offset_coord dim (horner c 0) R) as [[L' F'] E]. rewrite to_offset_horner in E.
  apply horner_inj; auto. congruence.
Qed.

Lemma nearest_floor p : nearest_node p (map (fun q => Qfloor (q + (1#2))%Q) p).
Proof.
  unfold nearest_node. induction p as [|q p IH]; cbn [map]; constructor; [|exact IH].
  pose proof (Qfloor_le (q + (1#2))) as A. pose proof (Qlt_floor (q + (1#2))) as B.
  rewrite inject_Z_plus in B. change (inject_Z 1) with 1%Q in B. split; Lqa.lra.
Qed.
Lemma nearest_unique p N : nearest_node p N -> map (fun q => Qfloor (q + (1#2))%Q) p = N.
Proof.
  induction 1 as [|q n p N [A B] _ IH]; [reflexivity|]. cbn [map]. rewrite IH. f_equal.
  assert (n <= Qfloor (q + (1#2))). { rewrite <- (Qfloor_Z n). apply Qfloor_resp_le. Lqa.lra. }
  assert (Qfloor (q + (1#2)) < n + 1).
  { rewrite Zlt_Qlt. eapply Qle_lt_trans; [apply Qfloor_le|]. rewrite inject_Z_plus. change (inject_Z 1) with 1%Q. Lqa.lra. }
  lia.
Qed.
End C.
