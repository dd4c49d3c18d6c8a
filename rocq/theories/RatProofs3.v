From Coq Require Import QArith.
From Verif Require Import Prelude SortModel RatModel RatSpec RatProofs RatProofs2.
Local Open Scope Z_scope.

Lemma pp n : 0 <= n -> 0 < 2 ^ n. Proof. intro. apply Z.pow_pos_nonneg; lia. Qed.
Lemma psplit a b : 0 <= a <= b -> 2 ^ b = 2 ^ a * 2 ^ (b - a).
Proof. intro H. rewrite <- Z.pow_add_r by lia. f_equal. lia. Qed.
Lemma dval k n : 0 <= n -> dvalue (k, n) = value (k, 2 ^ n). Proof. reflexivity. Qed.
Lemma dval_eq k n k' n' : 0 <= n -> 0 <= n' -> ((dvalue (k, n) == dvalue (k', n'))%Q <-> k * 2 ^ n' = k' * 2 ^ n).
Proof. intros H H'. pose proof (pp n H). pose proof (pp n' H'). rewrite !dval by assumption. apply value_eq; lia. Qed.
Lemma dval_lt k n k' n' : 0 <= n -> 0 <= n' -> ((dvalue (k, n) < dvalue (k', n'))%Q <-> k * 2 ^ n' < k' * 2 ^ n).
Proof. intros H H'. pose proof (pp n H). pose proof (pp n' H'). rewrite !dval by assumption. apply value_lt; lia. Qed.
Lemma dval_add k n k' n' : 0 <= n -> 0 <= n' -> (dvalue (k, n) + dvalue (k', n') == value ((k * 2 ^ n' + k' * 2 ^ n)%Z, (2 ^ n * 2 ^ n')%Z))%Q.
Proof. intros H H'. pose proof (pp n H). pose proof (pp n' H'). rewrite !dval by assumption. apply value_add; lia. Qed.

Lemma red_loop f : forall t r, 0 <= r < 2 ^ Z.of_nat f -> 0 <= t -> t + Z.of_nat f <= 64 ->
  exists j r', reduction_loop f t r = Some (t + j, r') /\ r = r' * 2 ^ j /\ 0 <= j /\ (r = 0 -> j = 0) /\ (r <> 0 -> Z.odd r' = true).
Proof.
  induction f as [|f IH]; intros t r Hr Ht Hf; cbn [reduction_loop].
  - assert (r = 0) by (cbn in Hr; lia). subst r. exists 0, 0. cbn. rewrite Z.add_0_r. repeat split; lia.
  - destruct (Z.eqb_spec r 0) as [->|N]; cbn [negb andb].
    + exists 0, 0. rewrite Z.add_0_r. repeat split; lia.
    + destruct (Z.even r) eqn:E.
      * pose proof (Zeven.Zeven_bool_iff r) as [K _]. specialize (K E). apply Zeven.Zeven_ex in K as [k K]. replace (r / 2) with k by (rewrite K, Z.mul_comm, Z.div_mul; lia).
        replace (u8 (t + 1)) with (t + 1) by (unfold u8; rewrite Z.mod_small; lia). rewrite Nat2Z.inj_succ, Z.pow_succ_r in Hr by lia.
        destruct (IH (t + 1) k) as (j & r' & -> & Er & Hj & _ & Ho); [lia|lia|lia|]. exists (j + 1), r'. split; [f_equal; f_equal; lia|]. split; [rewrite Z.pow_add_r, K, Er by lia; ring|].
        split; [lia|]. split; [lia|]. intros _. apply Ho. lia.
      * exists 0, r. rewrite Z.add_0_r. split; [reflexivity|]. split; [cbn; lia|]. split; [lia|]. split; [reflexivity|]. intros _. rewrite <- Z.negb_even, E. reflexivity.
Qed.
Lemma red_ok n : 0 <= n < 2 ^ 64 -> exists t r, reduction n = Some (t, r) /\ n = r * 2 ^ t /\ 0 <= t /\ (n = 0 -> t = 0 /\ r = 0) /\ (n <> 0 -> Z.odd r = true /\ 0 < r /\ t <= 63).
Proof.
  intro H. destruct (red_loop 64 0 n) as (j & r & E & En & Hj & Z0 & O); [exact H|lia|lia|]. exists j, r. split; [exact E|]. split; [exact En|]. split; [exact Hj|]. split.
  - intros ->. specialize (Z0 eq_refl). subst j. rewrite Z.pow_0_r in En. lia.
  - intro N. split; [apply O; exact N|]. pose proof (pp j Hj). assert (0 < r) by (destruct (Z.lt_ge_cases 0 r); [assumption|assert (r * 2 ^ j <= 0 * 2 ^ j) by (apply Z.mul_le_mono_nonneg_r; lia); lia]).
    split; [assumption|]. destruct (Z.le_gt_cases j 63); [assumption|]. assert (2 ^ 64 <= 2 ^ j) by (apply Z.pow_le_mono_r; lia).
    assert (1 * 2 ^ j <= r * 2 ^ j) by (apply Z.mul_le_mono_nonneg_r; lia). lia.
Qed.

(** exact sums *)
Definition no_overflow (x y : dyadic) : Prop :=
  let '(k1, n1) := x in let '(k2, n2) := y in
  0 <= k1 /\ 0 <= k2 /\ 0 <= n1 <= 63 /\ 0 <= n2 <= 63 /\ k1 * 2 ^ (Z.max n1 n2 - n1) + k2 * 2 ^ (Z.max n1 n2 - n2) < 2 ^ 64.
Lemma u64_small x : 0 <= x < 2 ^ 64 -> u64 x = x. Proof. apply Z.mod_small. Qed.
Lemma u8_small x : 0 <= x < 256 -> u8 x = x. Proof. apply Z.mod_small. Qed.
Lemma pow2_ok e : 0 <= e < 64 -> pow2 e = Some (2 ^ e). Proof. intro H. unfold pow2. destruct (Z.ltb_spec e 64); [reflexivity|lia]. Qed.
Lemma dadd_ok x y : no_overflow x y -> (snd x = snd y -> fst x + fst y = 0 \/ ~ (2 ^ (snd x + 1) | fst x + fst y)) ->
  exists z, dadd x y = Some z /\ (dvalue z == dvalue x + dvalue y)%Q /\ 0 <= fst z < 2 ^ 64 /\ 0 <= snd z <= Z.max (snd x) (snd y).
Proof.
  destruct x as [k1 n1], y as [k2 n2]. intros (K1 & K2 & N1 & N2 & Ov) Hd. cbn [fst snd] in *. unfold dadd. pose proof (pp n1 ltac:(lia)). pose proof (pp n2 ltac:(lia)).
  destruct (Z.eqb_spec n1 n2) as [<-|Ne]; [|destruct (Z.ltb_spec n1 n2)].
  - rewrite Z.max_id, Z.sub_diag, Z.pow_0_r, !Z.mul_1_r in Ov. rewrite u64_small by lia. specialize (Hd eq_refl). destruct (red_ok (k1 + k2) ltac:(lia)) as (t & r & -> & E & Ht & Z0 & Nz). cbn [bind fst snd].
    assert (T : t <= n1).
    { destruct (Z.eq_dec (k1 + k2) 0) as [Q|Q]; [destruct (Z0 Q); lia|]. destruct Hd as [|Hd]; [lia|]. destruct (Z.le_gt_cases t n1); [assumption|]. exfalso. apply Hd. exists (r * 2 ^ (t - (n1 + 1))).
      rewrite E, (psplit (n1 + 1) t) by lia. ring. }
    rewrite u8_small by lia. eexists. split; [reflexivity|]. split; [|cbn [fst snd]; split; [|lia]].
    + rewrite dval_add by lia. rewrite dval by lia. pose proof (pp (n1 - t) ltac:(lia)). apply value_eq; [lia|intro K; apply Z.mul_eq_0 in K; lia|].
      transitivity ((k1 + k2) * 2 ^ n1 * 2 ^ (n1 - t)); [|ring]. rewrite E. rewrite (psplit t n1) at 1 by lia. ring.
    + pose proof (pp t Ht). destruct (Z.eq_dec (k1 + k2) 0) as [Q|Q]; [destruct (Z0 Q); lia|]. destruct (Nz Q) as (_ & Rp & _). split; [lia|]. assert (r * 1 <= r * 2 ^ t) by (apply Z.mul_le_mono_nonneg_l; lia). lia.
  - rewrite Z.max_r in Ov by lia. rewrite Z.sub_diag, Z.pow_0_r, Z.mul_1_r in Ov. rewrite pow2_ok by lia. cbn [bind]. pose proof (pp (n2 - n1) ltac:(lia)).
    assert (0 <= k1 * 2 ^ (n2 - n1)) by (apply Z.mul_nonneg_nonneg; lia). rewrite (u64_small (k1 * _)) by lia. rewrite u64_small by lia.
    eexists. split; [reflexivity|]. split; [|cbn [fst snd]; lia]. rewrite dval_add by lia. rewrite dval by lia. apply value_eq; [lia|intro K; apply Z.mul_eq_0 in K; lia|].
    rewrite (psplit n1 n2) by lia. ring.
  - rewrite Z.max_l in Ov by lia. rewrite Z.sub_diag, Z.pow_0_r, Z.mul_1_r in Ov. rewrite pow2_ok by lia. cbn [bind]. pose proof (pp (n1 - n2) ltac:(lia)).
    assert (0 <= k2 * 2 ^ (n1 - n2)) by (apply Z.mul_nonneg_nonneg; lia). rewrite (u64_small (k2 * _)) by lia. rewrite u64_small by lia.
    eexists. split; [reflexivity|]. split; [|cbn [fst snd]; lia]. rewrite dval_add by lia. rewrite dval by lia. apply value_eq; [lia|intro K; apply Z.mul_eq_0 in K; lia|].
    rewrite (psplit n2 n1) by lia. ring.
Qed.

(** unit dyadics *)
Lemma odd_lt k n : 0 < n -> 0 <= k <= 2 ^ n -> Z.odd k = true -> k < 2 ^ n.
Proof.
  intros Hn Hk Ho. destruct (Z.eq_dec k (2 ^ n)) as [->|]; [|lia]. replace n with (Z.succ (n - 1)) in Ho by lia. rewrite Z.pow_succ_r, Z.odd_mul in Ho by lia. discriminate.
Qed.
Lemma unit_sum k1 n1 k2 n2 : unit_dyadic (k1, n1) -> unit_dyadic (k2, n2) -> n1 < n2 -> 0 <= k1 * 2 ^ (n2 - n1) <= 2 ^ n2 /\ 0 <= k2 < 2 ^ n2 /\ Z.odd k2 = true /\ 2 ^ n2 <= 2 ^ 63.
Proof.
  intros (N1 & K1 & O1) (N2 & K2 & O2) L. cbn [fst snd] in *. pose proof (pp (n2 - n1) ltac:(lia)). destruct O2 as [O2|]; [|lia].
  split; [split; [apply Z.mul_nonneg_nonneg; lia|rewrite (psplit n1 n2) by lia; apply Z.mul_le_mono_nonneg_r; lia]|]. split; [split; [lia|apply odd_lt; lia || assumption]|]. split; [exact O2|]. apply Z.pow_le_mono_r; lia.
Qed.
Lemma unit_even k1 n1 k2 n2 : unit_dyadic (k1, n1) -> unit_dyadic (k2, n2) -> n1 < n2 -> k1 * 2 ^ (n2 - n1) <> k2.
Proof.
  intros U1 U2 L E. destruct (unit_sum _ _ _ _ U1 U2 L) as (_ & _ & O & _). rewrite <- E, Z.odd_mul in O. replace (n2 - n1) with (Z.succ (n2 - n1 - 1)) in O by (destruct U1, U2; lia).
  destruct U1 as [U1 _], U2 as [U2 _]. cbn in U1, U2. rewrite Z.pow_succ_r, Z.odd_mul in O by lia. cbn in O. rewrite andb_false_r in O. discriminate.
Qed.
Lemma deq_ok x y : unit_dyadic x -> unit_dyadic y -> (deq x y = true <-> (dvalue x == dvalue y)%Q).
Proof.
  destruct x as [k1 n1], y as [k2 n2]. intros U1 U2. pose proof U1 as (N1 & _). pose proof U2 as (N2 & _). cbn [fst snd] in N1, N2. unfold deq. cbn [fst snd]. rewrite dval_eq by lia.
  pose proof (pp n1 ltac:(lia)). pose proof (pp n2 ltac:(lia)). split; intro H1.
  - assert (k1 = k2 /\ n1 = n2) as [-> ->] by lia. reflexivity.
  - destruct (Z.lt_trichotomy n1 n2) as [L|[<-|L]].
    + exfalso. apply (unit_even _ _ _ _ U1 U2 L). rewrite (psplit n1 n2) in H1 by lia. apply (Z.mul_reg_r _ _ (2 ^ n1)); lia.
    + apply Z.mul_reg_r in H1; lia.
    + exfalso. apply (unit_even _ _ _ _ U2 U1 L). rewrite (psplit n2 n1) in H1 by lia. apply (Z.mul_reg_r _ _ (2 ^ n2)); lia.
Qed.
Lemma dlt_ok x y : unit_dyadic x -> unit_dyadic y -> exists b, dlt x y = Some b /\ (b = true <-> (dvalue x < dvalue y)%Q).
Proof.
  destruct x as [k1 n1], y as [k2 n2]. intros U1 U2. pose proof U1 as (N1 & K1 & _). pose proof U2 as (N2 & K2 & _). cbn [fst snd] in N1, N2, K1, K2. unfold dlt.
  pose proof (pp n1 ltac:(lia)). pose proof (pp n2 ltac:(lia)). destruct (Z.ltb_spec n1 n2) as [L|L]; [|destruct (Z.ltb_spec n2 n1) as [L'|L']].
  - destruct (unit_sum _ _ _ _ U1 U2 L) as (S1 & S2 & _ & P). rewrite pow2_ok by lia. cbn [bind]. rewrite (Z.mul_comm (2 ^ _)), u64_small by lia. eexists. split; [reflexivity|]. rewrite dval_lt, Z.ltb_lt by lia.
    rewrite (psplit n1 n2) by lia. replace (k1 * (2 ^ n1 * 2 ^ (n2 - n1))) with (2 ^ n1 * (k1 * 2 ^ (n2 - n1))) by ring. rewrite (Z.mul_comm k2). apply Z.mul_lt_mono_pos_l. lia.
  - destruct (unit_sum _ _ _ _ U2 U1 L') as (S1 & S2 & _ & P). rewrite pow2_ok by lia. cbn [bind]. rewrite (Z.mul_comm (2 ^ _)), u64_small by lia. eexists. split; [reflexivity|]. rewrite dval_lt, Z.ltb_lt by lia.
    rewrite (psplit n2 n1) by lia. replace (k2 * (2 ^ n2 * 2 ^ (n1 - n2))) with (2 ^ n2 * (k2 * 2 ^ (n1 - n2))) by ring. rewrite (Z.mul_comm k1). apply Z.mul_lt_mono_pos_l. lia.
  - assert (n1 = n2) by lia. subst n2. eexists. split; [reflexivity|]. rewrite dval_lt, Z.ltb_lt by lia. apply Z.mul_lt_mono_pos_r. lia.
Qed.
Lemma dord_ok x y : unit_dyadic x -> unit_dyadic y ->
  (exists b, dle x y = Some b /\ (b = true <-> (dvalue x <= dvalue y)%Q)) /\ (exists b, dge x y = Some b /\ (b = true <-> (dvalue y <= dvalue x)%Q)) /\
  (exists b, dgt x y = Some b /\ (b = true <-> (dvalue y < dvalue x)%Q)).
Proof.
  intros U1 U2. pose proof (deq_ok x y U1 U2) as E. destruct (dlt_ok x y U1 U2) as (b & Eb & B). unfold dgt, dge, dle. rewrite Eb. destruct (deq x y).
  - assert (Q : (dvalue x == dvalue y)%Q) by (apply E; reflexivity). assert (b = false).
    { destruct b; [|reflexivity]. destruct B as [B _]. specialize (B eq_refl). rewrite Q in B. exfalso. exact (Qlt_irrefl _ B). }
    subst b. cbn [bind negb]. split; [|split]; (eexists; split; [reflexivity|]); rewrite Q.
    + split; [intro; apply Qle_refl|reflexivity].
    + split; [intro; apply Qle_refl|reflexivity].
    + split; [discriminate|intro K; exfalso; exact (Qlt_irrefl _ K)].
  - assert (Nq : ~ (dvalue x == dvalue y)%Q) by (intro K; apply E in K; discriminate). cbn [bind]. split; [|split]; (eexists; split; [reflexivity|]).
    + rewrite B. split; [apply Qlt_le_weak|]. intro K. apply Qle_lteq in K as [K|K]; [exact K|contradiction].
    + rewrite negb_true_iff. split; intro K; [apply Qnot_lt_le; intro K'; apply B in K'; congruence|]. destruct b; [|reflexivity]. exfalso. destruct B as [B _]. specialize (B eq_refl). apply (Qlt_not_le _ _ B K).
    + rewrite negb_true_iff. split; intro K.
      * destruct (Q_dec (dvalue x) (dvalue y)) as [[L|G]|Q]; [apply B in L; congruence|exact G|contradiction].
      * destruct b; [|reflexivity]. exfalso. destruct B as [B _]. specialize (B eq_refl). apply (Qlt_not_le _ _ B). apply Qlt_le_weak. exact K.
Qed.
Lemma unit_no_overflow x y : unit_dyadic x -> unit_dyadic y -> snd x <> snd y -> no_overflow x y.
Proof.
  destruct x as [k1 n1], y as [k2 n2]. intros U1 U2 Ne. cbn [snd] in Ne. pose proof U1 as (N1 & K1 & _). pose proof U2 as (N2 & K2 & _). cbn [fst snd] in *.
  unfold no_overflow. split; [lia|]. split; [lia|]. split; [lia|]. split; [lia|]. destruct (Z.lt_ge_cases n1 n2) as [L|L].
  - destruct (unit_sum _ _ _ _ U1 U2 L) as (S1 & S2 & _ & P). rewrite Z.max_r, Z.sub_diag, Z.pow_0_r by lia. lia.
  - destruct (unit_sum _ _ _ _ U2 U1 ltac:(lia)) as (S1 & S2 & _ & P). rewrite Z.max_l, Z.sub_diag, Z.pow_0_r by lia. lia.
Qed.
Lemma value_le n d n' d' : 0 < d -> 0 < d' -> ((value (n, d) <= value (n', d'))%Q <-> n * d' <= n' * d).
Proof.
  intros H H'. split; intro K.
  - destruct (Z.le_gt_cases (n * d') (n' * d)); [assumption|]. exfalso. apply (Qle_not_lt _ _ K). apply value_lt; assumption.
  - apply Qnot_lt_le. intro L. apply (proj1 (value_lt _ _ _ _ H' H)) in L. lia.
Qed.
Lemma sum_leq_ok x y : unit_dyadic x -> unit_dyadic y -> exists b, sum_leq_1 x y = Some b /\ (b = true <-> (dvalue x + dvalue y <= 1)%Q).
Proof.
  intros U1 U2. unfold sum_leq_1. destruct (Z.eqb_spec (snd x) (snd y)) as [E|E].
  - destruct x as [k1 n1], y as [k2 n2]. cbn [fst snd] in *. subst n2. destruct U1 as (N1 & K1 & O1). destruct U2 as (N2 & K2 & O2). cbn [fst snd] in *. rewrite pow2_ok by lia. cbn [bind].
    pose proof (pp n1 ltac:(lia)). assert (2 ^ n1 <= 2 ^ 63) by (apply Z.pow_le_mono_r; lia).
    assert (k1 + k2 < 2 ^ 64).
    { destruct O1 as [O1|O1]; [|subst n1; cbn in *; lia]. destruct (Z.eq_dec n1 0) as [->|]; [cbn in *; lia|]. pose proof (odd_lt k1 n1 ltac:(lia) K1 O1). lia. }
    rewrite u64_small by lia. eexists. split; [reflexivity|]. rewrite Z.leb_le, dval_add by lia. change 1%Q with (value (1%Z, 1%Z)).
    assert (0 < 2 ^ n1 * 2 ^ n1) by (apply Z.mul_pos_pos; lia). rewrite value_le by lia.
    rewrite Z.mul_1_r, Z.mul_1_l. replace (k1 * 2 ^ n1 + k2 * 2 ^ n1) with ((k1 + k2) * 2 ^ n1) by ring. split; intro K; [apply Z.mul_le_mono_nonneg_r; lia|apply Z.mul_le_mono_pos_r in K; lia].
  - destruct (dadd_ok x y (unit_no_overflow x y U1 U2 E) ltac:(intro; contradiction)) as (z & -> & V & Fz & Sz). cbn [bind].
    destruct U1 as (N1 & _). destruct U2 as (N2 & _). rewrite pow2_ok by lia. cbn [bind]. eexists. split; [reflexivity|]. rewrite <- V. destruct z as [k n]. cbn [fst snd] in *.
    rewrite dval by lia. pose proof (pp n ltac:(lia)). change 1%Q with (value (1%Z, 1%Z)). rewrite value_le, Z.leb_le by lia. lia.
Qed.
Lemma bisect_ok lo hi : unit_dyadic lo -> unit_dyadic hi -> snd lo <= 62 -> snd hi <= 62 -> (dvalue lo < dvalue hi)%Q ->
  exists mid, bisect (lo, hi) = Some ((lo, mid), (mid, hi)) /\ unit_dyadic mid /\ (dvalue mid == (dvalue lo + dvalue hi) / inject_Z 2)%Q /\ (dvalue lo < dvalue mid)%Q /\ (dvalue mid < dvalue hi)%Q.
Proof.
  intros U1 U2 L1 L2 Lt. 
  assert (M : exists mid, bisect (lo, hi) = Some ((lo, mid), (mid, hi)) /\ unit_dyadic mid /\ (dvalue mid == (dvalue lo + dvalue hi) / inject_Z 2)%Q).
  { unfold bisect. cbn [fst snd]. destruct (Z.eq_dec (snd hi) (snd lo)) as [E|E].
    - destruct lo as [k1 n1], hi as [k2 n2]. cbn [fst snd] in *. subst n2. destruct U1 as (N1 & K1 & O1). destruct U2 as (_ & K2 & O2). cbn [fst snd] in *.
      pose proof (pp n1 ltac:(lia)). apply dval_lt in Lt; [|lia|lia]. apply Z.mul_lt_mono_pos_r in Lt; [|lia]. assert (2 ^ n1 <= 2 ^ 62) by (apply Z.pow_le_mono_r; lia).
      unfold dadd. rewrite Z.eqb_refl. rewrite u64_small by lia. destruct (red_ok (k2 + k1) ltac:(lia)) as (t & r & -> & Es & Ht & _ & Nz). destruct (Nz ltac:(lia)) as (Ro & Rp & Tp). cbn [bind fst snd].
      assert (T : t <= n1 + 1).
      { destruct (Z.le_gt_cases t (n1 + 1)); [assumption|]. assert (2 ^ (n1 + 2) <= 2 ^ t) by (apply Z.pow_le_mono_r; lia). replace (n1 + 2) with (Z.succ (Z.succ n1)) in * by lia. rewrite !Z.pow_succ_r in * by lia.
        assert (1 * 2 ^ t <= r * 2 ^ t) by (apply Z.mul_le_mono_nonneg_r; lia). lia. }
      assert (Pw : u8 (u8 (n1 - t) + 1) = n1 - t + 1) by (unfold u8; rewrite Z.add_mod_idemp_l by lia; apply Z.mod_small; lia).
      rewrite Pw. eexists. split; [reflexivity|]. pose proof (pp t Ht). pose proof (pp (n1 - t + 1) ltac:(lia)).
      assert (Sp : 2 ^ n1 * 2 = 2 ^ (n1 - t + 1) * 2 ^ t) by (rewrite <- Z.pow_add_r by lia; replace (n1 - t + 1 + t) with (Z.succ n1) by lia; rewrite Z.pow_succ_r by lia; ring).
      split.
      + split; cbn [fst snd]; [lia|]. split; [|left; exact Ro]. split; [lia|]. apply (Z.mul_le_mono_pos_r _ _ (2 ^ t)); lia.
      + rewrite dval_add by lia. rewrite dval by lia. unfold value. cbn [fst snd]. rewrite inject_Z_mult.
        transitivity (inject_Z (k1 * 2 ^ n1 + k2 * 2 ^ n1) / inject_Z (2 ^ n1 * 2 ^ n1 * 2))%Q; [|rewrite !inject_Z_mult; field; repeat split; apply inj0; lia].
        apply (value_eq r (2 ^ (n1 - t + 1)) (k1 * 2 ^ n1 + k2 * 2 ^ n1) (2 ^ n1 * 2 ^ n1 * 2)); [lia|intro K; apply Z.mul_eq_0 in K as [K|K]; [apply Z.mul_eq_0 in K; lia|lia]|].
        replace (2 ^ n1 * 2 ^ n1 * 2) with (2 ^ n1 * (2 ^ n1 * 2)) by ring. rewrite Sp. replace (k1 * 2 ^ n1 + k2 * 2 ^ n1) with ((k2 + k1) * 2 ^ n1) by ring. rewrite Es. ring.
    - destruct (dadd_ok hi lo (unit_no_overflow hi lo U2 U1 E) ltac:(intro; contradiction)) as (z & Ez & V & Fz & Sz). rewrite Ez. cbn [bind]. destruct z as [k n]. cbn [fst snd] in *.
      rewrite u8_small by lia. eexists. split; [reflexivity|]. pose proof (pp n ltac:(lia)).
      assert (Hk : Z.odd k = true /\ n = Z.max (snd hi) (snd lo)).
      { destruct lo as [k1 n1], hi as [k2 n2]. cbn [fst snd] in *. unfold dadd in Ez. destruct (Z.eqb_spec n2 n1); [contradiction|]. destruct (Z.ltb_spec n2 n1) as [L|L].
        - destruct (unit_sum _ _ _ _ U2 U1 L) as (S1 & S2 & O & P). destruct U1 as [U1 _], U2 as [U2 _]. cbn in U1, U2. rewrite pow2_ok in Ez by lia. cbn [bind] in Ez. rewrite (u64_small (k2 * _)) in Ez by lia. rewrite u64_small in Ez by lia.
          injection Ez as <- <-. split; [|lia]. rewrite Z.odd_add, O. replace (n1 - n2) with (Z.succ (n1 - n2 - 1)) by lia. rewrite Z.pow_succ_r, Z.odd_mul, Z.odd_mul by lia. cbn. rewrite andb_false_r. reflexivity.
        - destruct (unit_sum _ _ _ _ U1 U2 ltac:(lia)) as (S1 & S2 & O & P). destruct U1 as [U1 _], U2 as [U2 _]. cbn in U1, U2. rewrite pow2_ok in Ez by lia. cbn [bind] in Ez. rewrite (u64_small (k1 * _)) in Ez by lia. rewrite u64_small in Ez by lia.
          injection Ez as <- <-. split; [|lia]. rewrite Z.odd_add, O. replace (n2 - n1) with (Z.succ (n2 - n1 - 1)) by lia. rewrite Z.pow_succ_r, Z.odd_mul, Z.odd_mul by lia. cbn. rewrite andb_false_r. reflexivity. }
      destruct Hk as [Ok Hn]. assert (Vm : (dvalue (k, (n + 1)%Z) == (dvalue lo + dvalue hi) / inject_Z 2)%Q).
      { rewrite Qplus_comm, <- V. rewrite !dval by lia. unfold value. cbn [fst snd]. rewrite Z.pow_add_r, inject_Z_mult by lia. change (inject_Z (2 ^ 1)) with (inject_Z 2). field; repeat split; apply inj0; lia. }
      split; [|exact Vm]. split; cbn [fst snd]; [lia|]. split; [|left; exact Ok]. split; [lia|].
      assert (V1 : (dvalue hi <= 1)%Q /\ (dvalue lo <= 1)%Q).
      { destruct lo as [k1 n1], hi as [k2 n2]. destruct U1 as (N1 & K1 & _). destruct U2 as (N2 & K2 & _). cbn [fst snd] in *. change 1%Q with (value (1%Z, 1%Z)). rewrite !dval by lia.
        pose proof (pp n1 ltac:(lia)). pose proof (pp n2 ltac:(lia)). rewrite !value_le by lia. lia. }
      assert (V2 : (dvalue (k, n) <= value (2%Z, 1%Z))%Q) by (rewrite V; change (value (2%Z, 1%Z)) with (1 + 1)%Q || (assert (value (2%Z,1%Z) == 1 + 1)%Q as -> by reflexivity); apply Qplus_le_compat; apply V1).
      rewrite dval, value_le in V2 by lia. rewrite Z.pow_add_r by lia. lia. }
  destruct M as (mid & E & U & V). exists mid. split; [exact E|]. split; [exact U|]. split; [exact V|].
  assert (T2 : (0 < inject_Z 2)%Q) by reflexivity. split.
  - rewrite V. apply Qlt_shift_div_l; [exact T2|]. setoid_replace (dvalue lo * inject_Z 2)%Q with (dvalue lo + dvalue lo)%Q by (change (inject_Z 2) with (1 + 1)%Q || idtac; unfold inject_Z; ring). apply Qplus_lt_r. exact Lt.
  - rewrite V. apply Qlt_shift_div_r; [exact T2|]. setoid_replace (dvalue hi * inject_Z 2)%Q with (dvalue hi + dvalue hi)%Q by (unfold inject_Z; ring). apply Qplus_lt_l. exact Lt.
Qed.
