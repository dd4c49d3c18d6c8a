From Verif Require Import Prelude BitLin BitsModel BitsSpec BitsProofs.
Local Open Scope N_scope.

(** ---- rounding ---- *)
Lemma wsub_small w a b : b <= a -> a < 2 ^ w -> wsub w a b = a - b.
Proof.
  intros H1 H2. unfold wsub. rewrite (N.mod_small b) by lia.
  replace (a + 2 ^ w - b) with (a - b + 1 * 2 ^ w) by lia.
  rewrite N.mod_add by (apply N.pow_nonzero; lia). apply N.mod_small. lia.
Qed.

Lemma land_notmask w n k : n < 2 ^ w -> k < w -> N.land n (wnot w (2 ^ k - 1)) = n / 2 ^ k * 2 ^ k.
Proof.
  intros Hn Hk. rewrite <- N.shiftr_div_pow2, <- N.shiftl_mul_pow2, <- N.ldiff_ones_r.
  apply N.bits_inj. intro i. unfold wnot. rewrite N.land_spec, N.lxor_spec, N.ldiff_spec.
  replace (2 ^ k - 1) with (N.ones k) by (rewrite N.ones_equiv; lia).
  destruct (N.lt_ge_cases i w) as [L|L].
  - rewrite (N.ones_spec_low w) by lia. rewrite xorb_true_r. reflexivity.
  - rewrite (testbit_small n w) by (assumption || lia). reflexivity.
Qed.

Lemma pow2_lt a b : a < b -> 2 ^ a < 2 ^ b.
Proof. intro. apply N.pow_lt_mono_r; lia. Qed.
Lemma pow2_pos a : 0 < 2 ^ a.
Proof. apply N.neq_0_lt_0, N.pow_nonzero. lia. Qed.

Lemma round_down_ok w n k : n < 2 ^ w -> k < w ->
  let r := round_down w n (2 ^ k) in r mod 2 ^ k = 0 /\ r <= n /\ n < r + 2 ^ k.
Proof.
  intros Hn Hk. unfold round_down. pose proof (pow2_pos k). pose proof (pow2_lt k w Hk).
  rewrite wsub_small by lia. rewrite land_notmask by assumption. cbn zeta.
  pose proof (N.mul_div_le n (2 ^ k) ltac:(lia)). pose proof (N.mul_succ_div_gt n (2 ^ k) ltac:(lia)).
  rewrite N.mod_mul by lia. split; [reflexivity|]. rewrite (N.mul_comm (n / 2 ^ k)). lia.
Qed.
Lemma round_up_ok w n k : n + 2 ^ k - 1 < 2 ^ w -> k < w ->
  let r := round_up w n (2 ^ k) in r mod 2 ^ k = 0 /\ n <= r /\ r < n + 2 ^ k.
Proof.
  intros Hn Hk. unfold round_up. pose proof (pow2_pos k). pose proof (pow2_lt k w Hk).
  rewrite (wsub_small w (2 ^ k)) by lia.
  assert (E : wsub w (wadd w n (2 ^ k)) 1 = n + 2 ^ k - 1).
  { unfold wadd. destruct (N.lt_ge_cases (n + 2 ^ k) (2 ^ w)) as [L|L].
    - rewrite N.mod_small by lia. apply wsub_small; lia.
    - replace (n + 2 ^ k) with (2 ^ w) by lia. rewrite N.mod_same by lia.
      unfold wsub. destruct (N.eq_dec (2 ^ w) 1) as [E1|E1]; [lia|].
      rewrite (N.mod_small 1) by lia. rewrite N.mod_small by lia. lia. }
  rewrite E. rewrite land_notmask by assumption. cbn zeta.
  set (q := n + 2 ^ k - 1) in *.
  pose proof (N.mul_div_le q (2 ^ k) ltac:(lia)). pose proof (N.mul_succ_div_gt q (2 ^ k) ltac:(lia)).
  rewrite N.mod_mul by lia. split; [reflexivity|]. rewrite (N.mul_comm (q / 2 ^ k)). lia.
Qed.

(** ---- interleaved mask ---- *)
Lemma ibm_loop_bits w dim : 0 < dim -> forall fuel cur mask i, w <= cur + N.of_nat fuel * dim ->
  N.testbit (ibm_loop fuel w dim cur mask) i = N.testbit mask i || ((cur <=? i) && (i <? w) && ((i - cur) mod dim =? 0)).
Proof.
  intro Hd. induction fuel as [|f IH]; intros cur mask i Hf; cbn [ibm_loop].
  - destruct (N.leb_spec cur i), (N.ltb_spec i w); cbn; rewrite ?orb_false_r; try reflexivity. lia.
  - destruct (N.ltb_spec cur w) as [L|L].
    + rewrite IH by lia. rewrite N.lor_spec, wshl_bits, <- orb_assoc. f_equal.
      destruct (N.ltb_spec i w) as [Li|Li]; cbn [andb]; [|rewrite !andb_false_r; reflexivity].
      rewrite !andb_true_r. destruct (N.leb_spec cur i) as [Lc|Lc]; cbn [andb].
      * destruct (N.eq_dec i cur) as [->|Ne].
        -- rewrite N.sub_diag, N.mod_0_l by lia. cbn. reflexivity.
        -- replace (N.testbit 1 (i - cur)) with false.
           2:{ symmetry. apply (testbit_small 1 1); [reflexivity|lia]. }
           cbn [orb]. destruct (N.leb_spec (cur + dim) i) as [Ld|Ld]; cbn [andb].
           ++ replace (i - cur) with (i - (cur + dim) + 1 * dim) by lia. rewrite N.mod_add by lia. reflexivity.
           ++ rewrite N.mod_small by lia. symmetry. apply N.eqb_neq. lia.
      * destruct (N.leb_spec (cur + dim) i); [lia|reflexivity].
    + destruct (N.leb_spec cur i), (N.ltb_spec i w); cbn; rewrite ?orb_false_r; try reflexivity. lia.
Qed.
Lemma interleaved_ok w dim i : 0 < dim ->
  N.testbit (interleaved_bit_mask w dim) i = (i <? w) && (i mod dim =? 0).
Proof.
  intro Hd. unfold interleaved_bit_mask. rewrite ibm_loop_bits by (try rewrite N2Nat.id; nia).
  rewrite N.bits_0, N.sub_0_r. destruct (N.leb_spec 0 i); [reflexivity|lia].
Qed.

(** ---- bit length ---- *)
Lemma bit_length_f_ok : forall fuel n, n < 2 ^ N.of_nat fuel -> bit_length_f fuel n = if n =? 0 then 0 else N.log2 n + 1.
Proof.
  induction fuel as [|f IH]; intros n Hn; cbn [bit_length_f].
  - cbn in Hn. assert (n = 0) as -> by lia. reflexivity.
  - destruct (N.ltb_spec 0 n) as [L|L].
    + destruct (N.eqb_spec n 0); [lia|]. rewrite <- N.div2_spec.
      rewrite IH.
      * destruct (N.eqb_spec (N.div2 n) 0) as [E|E].
        -- assert (n = 1) as -> by (rewrite N.div2_div in E; apply N.div_small_iff in E; lia). reflexivity.
        -- f_equal. rewrite N.div2_spec, N.log2_shiftr. assert (1 <= N.log2 n); [|lia].
           rewrite N.div2_div in E. assert (2 <= n).
           { destruct (N.lt_ge_cases n 2); [|assumption]. rewrite N.div_small in E by assumption. contradiction. }
           apply N.log2_le_pow2; [lia|]. cbn. lia.
      * rewrite N.div2_div. rewrite Nat2N.inj_succ, N.pow_succ_r' in Hn. apply N.div_lt_upper_bound; lia.
    + assert (n = 0) as -> by lia. reflexivity.
Qed.
Lemma bit_length_eq w n : n < 2 ^ w -> bit_length w n = if n =? 0 then 0 else N.log2 n + 1.
Proof. intro H. apply bit_length_f_ok. rewrite N2Nat.id. exact H. Qed.
Lemma bit_length_ok w n : n < 2 ^ w -> digits2 n (bit_length w n).
Proof.
  intro H. rewrite bit_length_eq by exact H. unfold digits2. destruct (N.eqb_spec n 0) as [->|Ne].
  - split; [reflexivity|]. split; [lia|reflexivity].
  - pose proof (N.log2_spec n ltac:(lia)) as [A B]. rewrite <- N.add_1_r in B.
    split; [exact B|]. split; [|lia]. intros _. rewrite N.add_sub. split; [exact A|lia].
Qed.
Lemma bit_count_eq w n : n <= 2 ^ w -> bit_count w n = N.log2_up n.
Proof.
  intro H. unfold bit_count. destruct (N.ltb_spec 0 n) as [L|L].
  - pose proof (pow2_pos w). rewrite bit_length_eq by lia. destruct (N.eqb_spec (n - 1) 0) as [E|E].
    + assert (n = 1) as -> by lia. reflexivity.
    + rewrite N.log2_up_eqn by lia. rewrite N.add_1_r. f_equal. f_equal. lia.
  - assert (n = 0) as -> by lia. reflexivity.
Qed.
Lemma log2_up_least n : 0 < n -> least_pow2 n (2 ^ N.log2_up n).
Proof.
  intro H. split; [eauto|]. split.
  - destruct (N.eq_dec n 1) as [->|]; [cbn; lia|]. apply N.log2_log2_up_spec. lia.
  - intros k Hk. apply N.pow_le_mono_r; [lia|]. apply N.log2_up_le_pow2; assumption.
Qed.
Lemma next_2pow_ok w n : 0 < w -> n <= 2 ^ (w - 1) -> exists r, next_2pow w n = Some r /\ least_pow2 n r.
Proof.
  intros Hw H. assert (E : 2 ^ w = 2 * 2 ^ (w - 1)) by (rewrite <- N.pow_succ_r'; f_equal; lia).
  pose proof (pow2_pos (w - 1)).
  unfold next_2pow, cshl. rewrite bit_count_eq by lia.
  destruct (N.eq_dec n 0) as [->|Ne].
  - change (N.log2_up 0) with 0. destruct (N.ltb_spec 0 w); [|lia]. exists 1. split.
    + unfold wshl. change (N.shiftl 1 0) with 1. rewrite N.mod_small by lia. reflexivity.
    + split; [exists 0; reflexivity|]. split; [lia|]. intros k _. pose proof (pow2_pos k). lia.
  - assert (Hlu : N.log2_up n <= w - 1) by (apply N.log2_up_le_pow2; lia).
    destruct (N.ltb_spec (N.log2_up n) w); [|lia]. exists (2 ^ N.log2_up n). split; [|apply log2_up_least; lia].
    unfold wshl. rewrite N.shiftl_1_l. rewrite N.mod_small by (apply pow2_lt; lia). reflexivity.
Qed.
(** above 2^(w-1) the shift count reaches the word width *)
Lemma next_2pow_ub w n : 0 < w -> 2 ^ (w - 1) < n -> n < 2 ^ w -> next_2pow w n = None.
Proof.
  intros Hw H1 H2. unfold next_2pow, cshl. rewrite bit_count_eq by lia.
  assert (w - 1 < N.log2_up n). { apply N.log2_up_lt_pow2; [lia|exact H1]. }
  destruct (N.ltb_spec (N.log2_up n) w); [lia|reflexivity].
Qed.

(** ---- next_power_of_two ---- *)
Definition smears (x y : N) (m : nat) : Prop :=
  forall j, N.testbit y j = existsb (fun t => N.testbit x (j + N.of_nat t)) (seq 0 m).
Lemma existsb_app' {A} (f : A -> bool) l l' : existsb f (l ++ l') = existsb f l || existsb f l'.
Proof. apply existsb_app. Qed.
Lemma smear_step x y m : smears x y m -> smears x (N.lor y (N.shiftr y (N.of_nat m))) (m + m).
Proof.
  intros H j. rewrite N.lor_spec, N.shiftr_spec by lia. rewrite !H, seq_app, existsb_app'. f_equal.
  cbn [Nat.add]. generalize m at 2 4 as c. intro c. revert c.
  assert (G : forall c s, existsb (fun t => N.testbit x (j + N.of_nat m + N.of_nat t)) (seq s c) =
                     existsb (fun t => N.testbit x (j + N.of_nat t)) (seq (m + s) c)).
  { induction c as [|c IH]; intro s; cbn [seq existsb]; [reflexivity|]. f_equal.
    - f_equal. lia.
    - rewrite IH. f_equal. f_equal. lia. }
  intro c. rewrite G, Nat.add_0_r. reflexivity.
Qed.
Lemma smear_1 x : smears x x 1.
Proof. intro j. cbn. rewrite N.add_0_r, orb_false_r. reflexivity. Qed.
Lemma smears_ones x y : smears x y 32 -> 0 < x -> x < 2 ^ 32 -> y = N.ones (N.log2 x + 1).
Proof.
  intros H H0 Hx. apply N.bits_inj. intro j. rewrite H.
  destruct (N.lt_ge_cases j (N.log2 x + 1)) as [L|L].
  - rewrite N.ones_spec_low by lia. apply existsb_exists. exists (N.to_nat (N.log2 x - j)). split.
    + apply in_seq. assert (N.log2 x < 32) by (apply N.log2_lt_pow2; lia). lia.
    + rewrite N2Nat.id. replace (j + (N.log2 x - j)) with (N.log2 x) by lia. apply N.bit_log2. lia.
  - rewrite N.ones_spec_high by lia. apply not_true_iff_false. intro E. apply existsb_exists in E.
    destruct E as (t & _ & E). rewrite N.bits_above_log2 in E by lia. discriminate.
Qed.
Lemma next_power_of_two_ok i : 0 < i -> i <= 2 ^ 31 -> least_pow2 i (next_power_of_two i).
Proof.
  intros H0 H1. unfold next_power_of_two. assert (i < 2 ^ 32) by (eapply N.le_lt_trans; [exact H1|reflexivity]).
  rewrite (wsub_small 32 i 1) by lia. cbv zeta.
  set (x := i - 1).
  pose proof (smear_step _ _ _ (smear_step _ _ _ (smear_step _ _ _ (smear_step _ _ _ (smear_step _ _ _ (smear_1 x)))))) as S.
  cbn [Nat.add] in S. cbn [N.of_nat] in S. 
  change (Pos.of_succ_nat 0) with 1%positive in S. change (Pos.of_succ_nat 1) with 2%positive in S.
  change (Pos.of_succ_nat 3) with 4%positive in S. change (Pos.of_succ_nat 7) with 8%positive in S.
  change (Pos.of_succ_nat 15) with 16%positive in S.
  set (y := N.lor _ (N.shiftr _ 16)) in *.
  destruct (N.eq_dec x 0) as [E|E].
  - assert (i = 1) as -> by lia. assert (x = 0) by lia.
    assert (Y0 : y = 0).
    { apply N.bits_inj. intro j. rewrite S, N.bits_0. rewrite H2. apply not_true_iff_false. intro G.
      apply existsb_exists in G. destruct G as (t & _ & G). rewrite N.bits_0 in G. discriminate. }
    rewrite Y0. apply (log2_up_least 1). lia.
  - rewrite (smears_ones x y S) by lia. rewrite N.ones_equiv.
    assert (N.log2 x < 31) by (apply N.log2_lt_pow2; lia).
    assert (2 ^ (N.log2 x + 1) <= 2 ^ 31) by (apply N.pow_le_mono_r; lia).
    pose proof (pow2_pos (N.log2 x + 1)).
    unfold wadd. rewrite N.mod_small.
    + replace (N.pred (2 ^ (N.log2 x + 1)) + 1) with (2 ^ N.log2_up i); [apply log2_up_least; lia|].
      rewrite N.log2_up_eqn by lia. rewrite <- N.add_1_r. replace (N.pred i) with x by lia. lia.
    + assert (2 ^ 31 < 2 ^ 32) by reflexivity. lia.
Qed.

(** ---- reversal, leading zeros ---- *)
Lemma half_lt n f : n < 2 ^ N.of_nat (S f) -> N.shiftr n 1 < 2 ^ N.of_nat f.
Proof.
  intro H. rewrite N.shiftr_div_pow2. change (2 ^ 1) with 2. rewrite Nat2N.inj_succ, N.pow_succ_r' in H.
  apply N.div_lt_upper_bound; lia.
Qed.
Lemma odd_land x : N.land x 1 = N.b2n (N.testbit x 0).
Proof. change 1 with (N.ones 1). rewrite N.land_ones. rewrite <- N.bit0_mod. reflexivity. Qed.

Lemma breverse_bits w : forall f data i, data < 2 ^ N.of_nat f -> N.of_nat f <= w ->
  N.testbit (breverse_f f w data (N.of_nat f - 1)) i = (i <? N.of_nat f) && N.testbit data (N.of_nat f - 1 - i).
Proof.
  induction f as [|f IH]; intros data i Hd Hw; cbn [breverse_f].
  - rewrite N.bits_0. destruct (N.ltb_spec i (N.of_nat 0)); [lia|reflexivity].
  - destruct (N.eqb_spec data 0) as [->|Nz].
    + rewrite !N.bits_0. rewrite andb_false_r. reflexivity.
    + rewrite N.lor_spec, wshl_bits.
      replace (N.of_nat (S f) - 1 - 1) with (N.of_nat f - 1) by lia.
      replace (N.of_nat (S f) - 1) with (N.of_nat f) by lia.
      rewrite IH; [|apply half_lt; exact Hd|lia].
      destruct (N.ltb_spec i (N.of_nat (S f))) as [L|L]; cbn [andb].
      * destruct (N.eq_dec i (N.of_nat f)) as [->|Ne].
        -- destruct (N.ltb_spec (N.of_nat f) w); [|lia]. rewrite N.leb_refl. cbn [andb]. rewrite N.sub_diag.
           destruct (N.ltb_spec (N.of_nat f) (N.of_nat f)); [lia|]. cbn [andb]. rewrite orb_false_r.
           rewrite odd_land. destruct (N.testbit data 0); reflexivity.
        -- destruct (N.leb_spec (N.of_nat f) i); [lia|]. rewrite andb_false_r. cbn [andb orb].
           destruct (N.ltb_spec i (N.of_nat f)); [|lia]. cbn [andb]. rewrite N.shiftr_spec by lia. f_equal. lia.
      * destruct (N.ltb_spec i (N.of_nat f)); [lia|]. cbn [andb]. rewrite orb_false_r.
        destruct (N.ltb_spec i w); cbn [andb]; [|reflexivity].
        destruct (N.leb_spec (N.of_nat f) i); [|reflexivity]. cbn [andb].
        rewrite odd_land. apply (testbit_small _ 1); [destruct (N.testbit data 0); reflexivity|lia].
Qed.
Lemma binary_reverse_bits w x i : x < 2 ^ w -> N.testbit (binary_reverse w x) i = (i <? w) && N.testbit x (w - 1 - i).
Proof.
  intro H. unfold binary_reverse. pose proof (breverse_bits w (N.to_nat w) x i) as B.
  rewrite N2Nat.id in B. apply B; [exact H|lia].
Qed.
Lemma binary_reverse_lt w x : x < 2 ^ w -> binary_reverse w x < 2 ^ w.
Proof.
  intro H. apply lt_pow2_bits. intros i Hi. rewrite binary_reverse_bits by exact H.
  destruct (N.ltb_spec i w); [lia|reflexivity].
Qed.

Lemma ctz_loop_ok : forall f d res, 0 < d -> d < 2 ^ N.of_nat f ->
  exists t, ctz_loop f d res = res + t /\ N.testbit d t = true /\ (forall u, u < t -> N.testbit d u = false).
Proof.
  induction f as [|f IH]; intros d res H0 H; cbn [ctz_loop].
  - cbn in H. lia.
  - rewrite odd_land. destruct (N.testbit d 0) eqn:E; cbn [N.b2n N.eqb].
    + exists 0. split; [lia|]. split; [exact E|]. intros; lia.
    + assert (Hs : N.shiftr d 1 = d / 2) by (rewrite N.shiftr_div_pow2; reflexivity).
      destruct (IH (N.shiftr d 1) (res + 1)) as (t & T1 & T2 & T3).
      * rewrite Hs. rewrite N.bit0_odd in E. destruct (N.eq_dec (d / 2) 0) as [Z|]; [|lia].
        apply N.div_small_iff in Z; [|lia]. assert (d = 1) as -> by lia. discriminate.
      * rewrite Hs. rewrite Nat2N.inj_succ, N.pow_succ_r' in H. apply N.div_lt_upper_bound; lia.
      * exists (t + 1). split; [rewrite T1; lia|]. rewrite N.shiftr_spec in T2 by lia. split; [exact T2|].
        intros u Hu. destruct (N.eq_dec u 0) as [->|Nu]; [exact E|].
        specialize (T3 (u - 1) ltac:(lia)). rewrite N.shiftr_spec in T3 by lia.
        replace (u - 1 + 1) with u in T3 by lia. exact T3.
Qed.
Lemma reverse_nz w x : x < 2 ^ w -> x <> 0 -> binary_reverse w x <> 0.
Proof.
  intros H Nz E. pose proof (N.bit_log2 x Nz) as B.
  assert (N.log2 x < w) by (apply N.log2_lt_pow2; lia).
  pose proof (binary_reverse_bits w x (w - 1 - N.log2 x) H) as R. rewrite E, N.bits_0 in R.
  replace (w - 1 - (w - 1 - N.log2 x)) with (N.log2 x) in R by lia. rewrite B in R.
  destruct (N.ltb_spec (w - 1 - N.log2 x) w); [discriminate|lia].
Qed.
Lemma clz_eq w x : x < 2 ^ w -> count_leading_zeros w x = if x =? 0 then w else w - 1 - N.log2 x.
Proof.
  intro H. unfold count_leading_zeros. destruct (N.eqb_spec x 0) as [->|Nz].
  - assert (E : binary_reverse w 0 = 0).
    { apply N.bits_inj. intro i. rewrite binary_reverse_bits by (apply pow2_pos). rewrite !N.bits_0. apply andb_false_r. }
    rewrite E. reflexivity.
  - pose proof (reverse_nz w x H Nz). destruct (N.eqb_spec (binary_reverse w x) 0); [contradiction|].
    destruct (ctz_loop_ok (N.to_nat w) (binary_reverse w x) 0) as (t & T1 & T2 & T3); [lia| |].
    { rewrite N2Nat.id. apply binary_reverse_lt. exact H. }
    rewrite T1. rewrite binary_reverse_bits in T2 by exact H. apply andb_true_iff in T2. destruct T2 as [L T2].
    assert (N.log2 x = w - 1 - t); [|lia].
    apply N.log2_bits_unique; [exact T2|]. intros m Hm.
    destruct (N.lt_ge_cases m w) as [Lm|Lm]; [|apply (testbit_small x w); assumption].
    specialize (T3 (w - 1 - m) ltac:(lia)). rewrite binary_reverse_bits in T3 by exact H.
    destruct (N.ltb_spec (w - 1 - m) w); [|lia]. cbn [andb] in T3. replace (w - 1 - (w - 1 - m)) with m in T3 by lia. exact T3.
Qed.
Lemma clz_ok w x : x < 2 ^ w ->
  let c := count_leading_zeros w x in
  c <= w /\ (forall i, w - c <= i -> i < w -> N.testbit x i = false) /\ (c < w -> N.testbit x (w - 1 - c) = true).
Proof.
  intro H. cbn zeta. rewrite clz_eq by exact H. destruct (N.eqb_spec x 0) as [->|Nz].
  - split; [lia|]. split; [intros; apply N.bits_0|lia].
  - assert (N.log2 x < w) by (apply N.log2_lt_pow2; lia). split; [lia|]. split.
    + intros i Hi _. apply N.bits_above_log2. lia.
    + intros _. replace (w - 1 - (w - 1 - N.log2 x)) with (N.log2 x) by lia. apply N.bit_log2. exact Nz.
Qed.

Lemma is_bit_on_ok m b : b < 64 -> is_bit_on m b = N.testbit m b.
Proof.
  intro H. unfold is_bit_on. change 63 with (N.ones 6). rewrite N.land_ones. rewrite (N.mod_small b) by exact H.
  destruct (N.testbit m b) eqn:E.
  - destruct (N.eqb_spec (N.land m (wshl 64 1 b)) 0) as [Z|]; [|reflexivity].
    assert (G : N.testbit (N.land m (wshl 64 1 b)) b = true).
    { rewrite N.land_spec, E, wshl_bits. rewrite N.leb_refl, N.sub_diag.
      destruct (N.ltb_spec b 64); [reflexivity|lia]. }
    rewrite Z, N.bits_0 in G. discriminate.
  - replace (N.land m (wshl 64 1 b)) with 0; [reflexivity|]. symmetry. apply N.bits_inj. intro i.
    rewrite N.land_spec, wshl_bits, N.bits_0. destruct (N.eq_dec i b) as [->|Ne]; [rewrite E; reflexivity|].
    destruct (N.leb_spec b i); [|rewrite !andb_false_r; reflexivity].
    replace (N.testbit 1 (i - b)) with false; [rewrite !andb_false_r; reflexivity|].
    symmetry. apply (testbit_small 1 1); [reflexivity|lia].
Qed.

(** ---- popcount ---- *)
Lemma popcount_S n x : popcount (S n) x = (popcount n x + (if N.testbit x (N.of_nat n) then 1 else 0))%nat.
Proof.
  unfold popcount. rewrite seq_S, filter_app, app_length. cbn [filter Nat.add].
  destruct (N.testbit x (N.of_nat n)); reflexivity.
Qed.
Lemma popcount_le n x : (popcount n x <= n)%nat.
Proof. induction n; [cbn; lia|]. rewrite popcount_S. destruct (N.testbit _ _); lia. Qed.
Lemma popcount_mono a b x : (a <= b)%nat -> (popcount a x <= popcount b x)%nat.
Proof.
  intro H. induction b; [assert (a = 0%nat) as -> by lia; lia|]. destruct (Nat.eq_dec a (S b)) as [->|]; [lia|].
  rewrite popcount_S. assert (popcount a x <= popcount b x)%nat by (apply IHb; lia). lia.
Qed.
Lemma popcount_lt a b x : (a < b)%nat -> N.testbit x (N.of_nat a) = true -> (popcount a x < popcount b x)%nat.
Proof.
  intros H B. pose proof (popcount_mono (S a) b x ltac:(lia)). rewrite popcount_S, B in H0. lia.
Qed.
Lemma popcount_skip a t x : (forall u, (u < t)%nat -> N.testbit x (N.of_nat (a + u)) = false) -> popcount (a + t) x = popcount a x.
Proof.
  induction t as [|t IH]; intro H; [rewrite Nat.add_0_r; reflexivity|].
  rewrite Nat.add_succ_r, popcount_S, H by lia. rewrite IH; [lia|]. intros; apply H; lia.
Qed.

(** digits in base 2^k *)
Fixpoint val (k : N) (ds : list N) : N := match ds with [] => 0 | d :: l => d + 2 ^ k * val k l end.
Lemma val_bits k d V i : d < 2 ^ k -> N.testbit (d + 2 ^ k * V) i = if i <? k then N.testbit d i else N.testbit V (i - k).
Proof.
  intro H. destruct (N.ltb_spec i k) as [L|L].
  - rewrite <- (N.mod_pow2_bits_low (d + 2 ^ k * V) k) by exact L.
    rewrite N.mul_comm, N.mod_add by (apply N.pow_nonzero; lia). rewrite N.mod_small by exact H. reflexivity.
  - replace i with (i - k + k) at 1 by lia. rewrite <- N.shiftr_spec by lia. rewrite N.shiftr_div_pow2.
    rewrite N.mul_comm, N.div_add by (apply N.pow_nonzero; lia). rewrite N.div_small by exact H. rewrite N.add_0_l. reflexivity.
Qed.
Lemma land_lt a b k : b < 2 ^ k -> N.land a b < 2 ^ k.
Proof.
  intro H. apply lt_pow2_bits. intros i Hi. rewrite N.land_spec, (testbit_small b k) by assumption. apply andb_false_r.
Qed.
Lemma field_land k s c : s < k -> c < 2 ^ (k - s) -> forall ds, Forall (fun d => d < 2 ^ k) ds ->
  N.land (N.shiftr (val k ds) s) (val k (repeat c (length ds))) = val k (map (fun d => N.land (N.shiftr d s) c) ds).
Proof.
  intros Hs Hc. assert (Hck : c < 2 ^ k) by (eapply N.lt_le_trans; [exact Hc|apply N.pow_le_mono_r; lia]).
  induction ds as [|d ds IH]; intro HF; cbn [val length repeat map].
  - apply N.land_0_r.
  - inversion HF as [|? ? Hd HF']; subst. apply N.bits_inj. intro i.
    rewrite N.land_spec, N.shiftr_spec by lia. rewrite !val_bits; [|apply land_lt; exact Hck|exact Hck|exact Hd].
    destruct (N.ltb_spec i k) as [L|L].
    + rewrite N.land_spec, N.shiftr_spec by lia. destruct (N.ltb_spec (i + s) k) as [L2|L2]; [reflexivity|].
      rewrite (testbit_small c (k - s)) by (assumption || lia). rewrite !andb_false_r. reflexivity.
    + destruct (N.ltb_spec (i + s) k); [lia|]. rewrite <- IH by exact HF'.
      rewrite N.land_spec, N.shiftr_spec by lia. f_equal. f_equal. lia.
Qed.
Lemma val_add k (f g : N -> N) : forall ds, val k (map f ds) + val k (map g ds) = val k (map (fun d => f d + g d) ds).
Proof. induction ds as [|d ds IH]; cbn [map val]; [reflexivity|]. rewrite <- IH. lia. Qed.
Lemma val_lt k ds : Forall (fun d => d < 2 ^ k) ds -> val k ds < 2 ^ (k * N.of_nat (length ds)).
Proof.
  induction ds as [|d ds IH]; intro HF; cbn [val length]; [rewrite N.mul_0_r; cbn; lia|].
  inversion HF; subst. specialize (IH H2). rewrite Nat2N.inj_succ, N.mul_succ_r, N.pow_add_r.
  set (P := 2 ^ (k * N.of_nat (length ds))) in *. nia.
Qed.
(** pair up digits *)
Fixpoint pairup (k : N) (ds : list N) : list N :=
  match ds with a :: b :: l => (a + 2 ^ k * b) :: pairup k l | _ => [] end.
Fixpoint evenl {A} (l : list A) : bool := match l with [] => true | [_] => false | _ :: _ :: l' => evenl l' end.
Lemma list_ind2 {A} (P : list A -> Prop) : P [] -> (forall a, P [a]) -> (forall a b l, P l -> P (a :: b :: l)) -> forall l, P l.
Proof.
  intros H0 H1 H2. assert (G : forall l, P l /\ forall a, P (a :: l)); [|intro l; apply G].
  induction l as [|x l [I1 I2]]; split; auto.
Qed.
Lemma val_pairup k : forall ds, evenl ds = true -> val (2 * k) (pairup k ds) = val k ds.
Proof.
  induction ds as [|a|a b l IH] using list_ind2; intro E; cbn in E; try discriminate; [reflexivity|].
  cbn [pairup val]. rewrite IH by exact E. replace (2 ^ (2 * k)) with (2 ^ k * 2 ^ k) by (rewrite <- N.pow_add_r; f_equal; lia). lia.
Qed.
Definition nsum (l : list N) : N := fold_right N.add 0 l.

(** binary digits of x *)
Definition bdig (n : nat) (x : N) : list N := map (fun i => N.b2n (N.testbit x (N.of_nat i))) (seq 0 n).
Lemma val1_bdig : forall n x, x < 2 ^ N.of_nat n -> val 1 (bdig n x) = x.
Proof.
  intros n x H. assert (G : forall n s, N.shiftr x (N.of_nat s) < 2 ^ N.of_nat n ->
    val 1 (map (fun i => N.b2n (N.testbit x (N.of_nat i))) (seq s n)) = N.shiftr x (N.of_nat s)).
  { clear. induction n as [|n IH]; intros s H; cbn [seq map val].
    - cbn in H. lia.
    - rewrite IH.
      + replace (N.of_nat (S s)) with (N.of_nat s + 1) by lia. rewrite <- N.shiftr_shiftr.
        set (y := N.shiftr x (N.of_nat s)). replace (N.testbit x (N.of_nat s)) with (N.testbit y 0) by (unfold y; rewrite N.shiftr_spec by lia; f_equal; lia).
        rewrite N.bit0_mod. rewrite N.shiftr_div_pow2. change (2 ^ 1) with 2. pose proof (N.div_mod y 2 ltac:(lia)). lia.
      + replace (N.of_nat (S s)) with (N.of_nat s + 1) by lia. rewrite <- N.shiftr_shiftr. apply half_lt. exact H. }
  specialize (G n 0%nat). cbn [N.of_nat] in G. rewrite N.shiftr_0_r in G. apply G. exact H.
Qed.
Lemma nsum_bdig n x : nsum (bdig n x) = N.of_nat (popcount n x).
Proof.
  unfold bdig, popcount. induction (seq 0 n) as [|i l IH]; [reflexivity|]. cbn [map filter nsum fold_right].
  fold (nsum (map (fun i => N.b2n (N.testbit x (N.of_nat i))) l)). rewrite IH.
  destruct (N.testbit x (N.of_nat i)); cbn [length N.b2n]; lia.
Qed.
Lemma bdig_le n x : Forall (fun d => d <= 1) (bdig n x).
Proof. apply Forall_map, Forall_forall. intros i _. destruct (N.testbit x (N.of_nat i)); cbn; lia. Qed.

Lemma sw_step k c : 1 <= k -> c = 2 ^ k - 1 -> forall ds (m : N), Forall (fun d => d <= m) ds -> evenl ds = true -> m < 2 ^ k ->
  let v := val k ds in let msk := val (2 * k) (repeat c (length (pairup k ds))) in
  N.land v msk = val (2 * k) (map (fun e => N.land e c) (pairup k ds)) /\
  N.land (N.shiftr v k) msk = val (2 * k) (map (fun e => N.land (N.shiftr e k) c) (pairup k ds)).
Proof.
  intros Hk -> ds m HF E Hm. cbn zeta. rewrite <- (val_pairup k ds E).
  assert (HP : Forall (fun d => d < 2 ^ (2 * k)) (pairup k ds)).
  { revert HF E. clear -Hm. induction ds as [|a|a b l IH] using list_ind2; intros HF E; cbn [pairup]; try (constructor; fail).
    inversion HF as [|? ? Ha HF1]; subst. inversion HF1 as [|? ? Hb HF2]; subst. constructor; [|apply IH; assumption].
    replace (2 ^ (2 * k)) with (2 ^ k * 2 ^ k) by (rewrite <- N.pow_add_r; f_equal; lia). nia. }
  pose proof (pow2_pos k) as P. split.
  - pose proof (field_land (2 * k) 0 (2 ^ k - 1) ltac:(lia)) as F. rewrite N.sub_0_r in F.
    rewrite <- (N.shiftr_0_r (val _ _)) at 1. rewrite F; [|eapply N.lt_le_trans; [|apply (N.pow_le_mono_r 2 k); lia]; lia|exact HP].
    f_equal. 
  - rewrite (field_land (2 * k) k (2 ^ k - 1)); [reflexivity|lia| |exact HP].
    replace (2 * k - k) with k by lia. lia.
Qed.

Fixpoint psum (ds : list N) : list N := match ds with a :: b :: l => (a + b) :: psum l | _ => [] end.
Lemma psum_nsum ds : evenl ds = true -> nsum (psum ds) = nsum ds.
Proof.
  induction ds as [|a|a b l IH] using list_ind2; intro E; cbn in E; try discriminate; [reflexivity|].
  cbn [psum nsum fold_right] in *. fold (nsum (psum l)). fold (nsum l). rewrite IH by exact E. lia.
Qed.
Lemma psum_le ds m : Forall (fun d => d <= m) ds -> Forall (fun d => d <= 2 * m) (psum ds).
Proof.
  induction ds as [|a|a b l IH] using list_ind2; intro HF; cbn [psum]; try (constructor; fail).
  inversion HF as [|? ? Ha HF1]; subst. inversion HF1; subst. constructor; [lia|auto].
Qed.
Lemma fields2 k a b : a < 2 ^ k -> b < 2 ^ k ->
  N.land (a + 2 ^ k * b) (2 ^ k - 1) = a /\ N.land (N.shiftr (a + 2 ^ k * b) k) (2 ^ k - 1) = b.
Proof.
  intros Ha Hb. pose proof (pow2_pos k).
  replace (2 ^ k - 1) with (N.ones k) by (rewrite N.ones_equiv; lia). rewrite !N.land_ones, N.shiftr_div_pow2.
  rewrite (N.mul_comm (2 ^ k) b). rewrite N.div_add by lia. rewrite N.mod_add by lia.
  rewrite (N.div_small a) by exact Ha. rewrite N.add_0_l. rewrite !N.mod_small by assumption. auto.
Qed.
Lemma pairup_fields k ds : Forall (fun d => d < 2 ^ k) ds ->
  map (fun e => N.land e (2 ^ k - 1) + N.land (N.shiftr e k) (2 ^ k - 1)) (pairup k ds) = psum ds /\
  val (2 * k) (map (fun e => N.land e (2 ^ k - 1)) (pairup k ds)) + val (2 * k) (map (fun e => N.land (N.shiftr e k) (2 ^ k - 1)) (pairup k ds)) = val (2 * k) (psum ds).
Proof.
  intro HF. assert (E : map (fun e => N.land e (2 ^ k - 1) + N.land (N.shiftr e k) (2 ^ k - 1)) (pairup k ds) = psum ds).
  { revert HF. induction ds as [|a|a b l IH] using list_ind2; intro HF; try reflexivity.
    inversion HF as [|? ? Ha HF1]; subst. inversion HF1 as [|? ? Hb HF2]; subst.
    cbn [pairup map psum]. rewrite IH by exact HF2. f_equal.
    destruct (fields2 k a b Ha Hb) as [-> ->]. reflexivity. }
  split; [exact E|]. rewrite val_add, E. reflexivity.
Qed.
Lemma Forall_le_lt ds m k : Forall (fun d => d <= m) ds -> m < 2 ^ k -> Forall (fun d => d < 2 ^ k) ds.
Proof. intros H L. eapply Forall_impl; [|exact H]. cbn. intros; lia. Qed.

Lemma pop_low k ds : 1 <= k -> Forall (fun d => d < 2 ^ k) ds -> evenl ds = true ->
  val k ds - N.land (N.shiftr (val k ds) k) (val (2 * k) (repeat (2 ^ k - 1) (length (pairup k ds)))) * (2 ^ k - 1)
  = val (2 * k) (psum ds) /\
  N.land (N.shiftr (val k ds) k) (val (2 * k) (repeat (2 ^ k - 1) (length (pairup k ds)))) * (2 ^ k - 1) <= val k ds.
Proof.
  intros Hk HF E. pose proof (pow2_pos k).
  destruct (sw_step k (2 ^ k - 1) Hk eq_refl ds (2 ^ k - 1)) as [S1 S2]; auto; [|lia|].
  { eapply Forall_impl; [|exact HF]. cbn. intros; lia. }
  rewrite S2. destruct (pairup_fields k ds HF) as [_ P2]. rewrite <- P2.
  set (A := val (2 * k) (map (fun e => N.land e (2 ^ k - 1)) (pairup k ds))).
  set (B := val (2 * k) (map (fun e => N.land (N.shiftr e k) (2 ^ k - 1)) (pairup k ds))).
  assert (V : val k ds = A + 2 ^ k * B).
  { unfold A, B. clear -HF E. pose proof (pow2_pos k). revert HF E. induction ds as [|a|a b l IH] using list_ind2; intros HF E; try discriminate; [cbn [val pairup map]; lia|].
    inversion HF as [|? ? Ha HF1]; subst. inversion HF1 as [|? ? Hb HF2]; subst. cbn [val pairup map].
    rewrite IH by assumption.
    destruct (fields2 k a b Ha Hb) as [-> ->].
    replace (2 ^ (2 * k)) with (2 ^ k * 2 ^ k) by (rewrite <- N.pow_add_r; f_equal; lia). lia. }
  rewrite V. nia.
Qed.

Lemma len8 (l : list N) : length l = 8%nat -> exists a b c d e f g h, l = [a;b;c;d;e;f;g;h].
Proof. intro H. do 9 (destruct l as [|? l]; cbn in H; try discriminate). repeat eexists. Qed.
Lemma len16 (l : list N) : length l = 16%nat -> exists a b c d e f g h i j k m n o p q, l = [a;b;c;d;e;f;g;h;i;j;k;m;n;o;p;q].
Proof. intro H. do 17 (destruct l as [|? l]; cbn in H; try discriminate). repeat eexists. Qed.

Lemma psum_length ds n : length ds = (2 * n)%nat -> length (psum ds) = n /\ evenl ds = true /\ length (pairup 1 ds) = n.
Proof.
  revert ds; induction n as [|n IH]; intros ds H.
  - destruct ds; [auto|discriminate].
  - destruct ds as [|a [|b l]]; try (cbn in H; lia). cbn [psum length evenl pairup].
    destruct (IH l) as (A & B & C); [cbn in H; lia|]. auto.
Qed.
Lemma pairup_length k ds n : length ds = (2 * n)%nat -> length (pairup k ds) = n.
Proof.
  revert ds; induction n as [|n IH]; intros ds H.
  - destruct ds; [auto|discriminate].
  - destruct ds as [|a [|b l]]; try (cbn in H; lia). cbn [length pairup]. rewrite IH; [reflexivity|cbn in H; lia].
Qed.

Lemma top_byte b0 b1 b2 b3 b4 b5 b6 b7 :
  b0 <= 8 -> b1 <= 8 -> b2 <= 8 -> b3 <= 8 -> b4 <= 8 -> b5 <= 8 -> b6 <= 8 -> b7 <= 8 ->
  N.shiftr (wmul 64 (val 8 [b0;b1;b2;b3;b4;b5;b6;b7]) 0x0101010101010101) 56 mod 2 ^ 8 = b0+b1+b2+b3+b4+b5+b6+b7.
Proof.
  intros. unfold wmul. rewrite N.shiftr_div_pow2.
  set (low := b0 + 2^8*(b0+b1) + 2^16*(b0+b1+b2) + 2^24*(b0+b1+b2+b3) + 2^32*(b0+b1+b2+b3+b4)
    + 2^40*(b0+b1+b2+b3+b4+b5) + 2^48*(b0+b1+b2+b3+b4+b5+b6)).
  set (hi := (b1+b2+b3+b4+b5+b6+b7) + 2^8*(b2+b3+b4+b5+b6+b7) + 2^16*(b3+b4+b5+b6+b7) + 2^24*(b4+b5+b6+b7)
    + 2^32*(b5+b6+b7) + 2^40*(b6+b7) + 2^48*b7).
  set (S := b0+b1+b2+b3+b4+b5+b6+b7).
  assert (E : val 8 [b0;b1;b2;b3;b4;b5;b6;b7] * 0x0101010101010101 = low + 2^56 * S + hi * 2 ^ 64).
  { unfold low, hi, S. cbn [val]. change (2^8) with 256. change (2^16) with 65536. change (2^24) with 16777216.
    change (2^32) with 4294967296. change (2^40) with 1099511627776. change (2^48) with 281474976710656.
    change (2^56) with 72057594037927936. change (2^64) with 18446744073709551616. lia. }
  assert (L : low < 2 ^ 56).
  { unfold low. change (2^8) with 256. change (2^16) with 65536. change (2^24) with 16777216.
    change (2^32) with 4294967296. change (2^40) with 1099511627776. change (2^48) with 281474976710656.
    change (2^56) with 72057594037927936. lia. }
  assert (LS : S <= 64) by (unfold S; lia).
  rewrite E. rewrite N.mod_add by (apply N.pow_nonzero; lia).
  change (2^64) with (2^56 * 256). change (2 ^ 8) with 256.
  generalize dependent (2 ^ 56). intros P E L.
  rewrite (N.mod_small (low + P * S)) by nia.
  rewrite (N.mul_comm P S), N.div_add by lia. rewrite (N.div_small low) by exact L. rewrite N.add_0_l.
  apply N.mod_small. lia.
Qed.

Lemma nibble_step d4 : length d4 = 16%nat -> Forall (fun d => d <= 4) d4 ->
  N.land (wadd 64 (val 4 d4) (N.shiftr (val 4 d4) 4)) 0x0F0F0F0F0F0F0F0F = val 8 (psum d4).
Proof.
  intros L3 F4. destruct (len16 d4 L3) as (a & b & c & d & e & f & g & h & i & j & k & m & n & o & p & q & ->).
    assert (SH : N.shiftr (val 4 [a;b;c;d;e;f;g;h;i;j;k;m;n;o;p;q]) 4 = val 4 [b;c;d;e;f;g;h;i;j;k;m;n;o;p;q;0]).
    { rewrite N.shiftr_div_pow2. assert (a <= 4) by (inversion F4; assumption).
      change (val 4 (a :: ?l)) with (a + 2 ^ 4 * val 4 l) at 1. rewrite N.mul_comm, N.div_add by (cbn; lia).
      rewrite N.div_small; [|change (2 ^ 4) with 16; lia]. rewrite N.add_0_l. cbn [val]. rewrite !N.mul_0_r, !N.add_0_r. reflexivity. }
    rewrite SH.
    assert (AD : val 4 [a;b;c;d;e;f;g;h;i;j;k;m;n;o;p;q] + val 4 [b;c;d;e;f;g;h;i;j;k;m;n;o;p;q;0]
       = val 4 [a+b;b+c;c+d;d+e;e+f;f+g;g+h;h+i;i+j;j+k;k+m;m+n;n+o;o+p;p+q;q]).
    { cbn [val]. change (2 ^ 4) with 16. lia. }
    unfold wadd. rewrite AD.
    set (l := [a+b;b+c;c+d;d+e;e+f;f+g;g+h;h+i;i+j;j+k;k+m;m+n;n+o;o+p;p+q;q]).
    assert (FL : Forall (fun x => x <= 8) l).
    { repeat match goal with H : Forall _ (_ :: _) |- _ => inversion H; clear H; subst end. unfold l. repeat constructor; lia. }
    assert (FL' : Forall (fun x => x < 2 ^ 4) l) by (eapply Forall_le_lt; [exact FL|reflexivity]).
    rewrite N.mod_small by (exact (val_lt 4 l FL')).
    destruct (sw_step 4 (2 ^ 4 - 1) ltac:(lia) eq_refl l 8 FL eq_refl ltac:(reflexivity)) as [Q1 _].
    change (val (2 * 4) (repeat (2 ^ 4 - 1) (length (pairup 4 l)))) with 0x0F0F0F0F0F0F0F0F in Q1.
    rewrite Q1. change (2 * 4) with 8. f_equal.
    unfold l. cbn [pairup map psum].
    assert (G : forall x y, x <= 8 -> N.land (x + 2 ^ 4 * y) (2 ^ 4 - 1) = x).
    { intros x y Hx. change (2 ^ 4 - 1) with (N.ones 4). rewrite N.land_ones. rewrite N.mul_comm, N.mod_add by (cbn; lia).
      apply N.mod_small. change (2 ^ 4) with 16. lia. }
    repeat match goal with H : Forall _ (_ :: _) |- _ => inversion H; clear H; subst end.
    rewrite !G by lia. reflexivity.
Qed.

Lemma num_bits_on_ok v : v < 2 ^ 64 -> num_bits_on v = N.of_nat (popcount 64 v).
Proof.
  intro Hv. unfold num_bits_on.
  assert (Hd : val 1 (bdig 64 v) = v) by (apply val1_bdig; exact Hv).
  set (d1 := bdig 64 v) in *.
  assert (L1 : length d1 = (2 * 32)%nat) by (unfold d1, bdig; rewrite map_length, seq_length; reflexivity).
  assert (F1 : Forall (fun d => d <= 1) d1) by apply bdig_le.
  destruct (psum_length d1 32 L1) as (L2 & E1 & _).
  set (d2 := psum d1) in *.
  assert (F2 : Forall (fun d => d <= 2) d2) by (apply (psum_le d1 1 F1)).
  destruct (psum_length d2 16 L2) as (L3 & E2 & _).
  set (d4 := psum d2) in *.
  assert (F4 : Forall (fun d => d <= 4) d4) by (apply (psum_le d2 2 F2)).
  destruct (psum_length d4 8 L3) as (L4 & E4 & _).
  assert (S1 : wsub 64 v (N.land (N.shiftr v 1) 0x5555555555555555) = val 2 d2).
  { destruct (pop_low 1 d1) as [P1 P2]; [lia|eapply Forall_le_lt; [exact F1|reflexivity]|exact E1|].
    rewrite (pairup_length 1 d1 32 L1) in P1, P2. rewrite Hd in P1, P2. rewrite N.mul_1_r in P1, P2.
    change (val (2 * 1) (repeat (2 ^ 1 - 1) 32)) with 0x5555555555555555 in P1, P2.
    rewrite wsub_small by assumption. exact P1. }
  rewrite S1. cbv zeta.
  assert (S2 : wadd 64 (N.land (val 2 d2) 0x3333333333333333) (N.land (N.shiftr (val 2 d2) 2) 0x3333333333333333) = val 4 d4).
  { assert (F2' : Forall (fun d => d < 2 ^ 2) d2) by (eapply Forall_le_lt; [exact F2|reflexivity]).
    destruct (sw_step 2 (2 ^ 2 - 1) ltac:(lia) eq_refl d2 2 F2 E2 ltac:(reflexivity)) as [Q1 Q2].
    rewrite (pairup_length 2 d2 16 L2) in Q1, Q2.
    change (val (2 * 2) (repeat (2 ^ 2 - 1) 16)) with 0x3333333333333333 in Q1, Q2.
    rewrite Q1, Q2. destruct (pairup_fields 2 d2 F2') as [_ P2]. unfold wadd. rewrite P2. change (2 * 2) with 4.
    apply N.mod_small. fold d4. pose proof (val_lt 4 d4 ltac:(eapply Forall_le_lt; [exact F4|reflexivity])) as V.
    rewrite L3 in V. exact V. }
  rewrite S2.
  assert (S3 : N.land (wadd 64 (val 4 d4) (N.shiftr (val 4 d4) 4)) 0x0F0F0F0F0F0F0F0F = val 8 (psum d4)).
  { apply nibble_step; assumption. }
  rewrite S3.
  assert (F8 : Forall (fun d => d <= 8) (psum d4)) by (apply (psum_le d4 4 F4)).
  pose proof (psum_nsum d4 E4) as N4. pose proof (psum_nsum d2 E2) as N2. pose proof (psum_nsum d1 E1) as N1.
  assert (NN : nsum (psum d4) = N.of_nat (popcount 64 v)).
  { rewrite N4. unfold d4. rewrite N2. unfold d2. rewrite N1. apply nsum_bdig. }
  rewrite <- NN. clear - F8 L4.
  destruct (len8 (psum d4) L4) as (a & b & c & d & e & f & g & h & E8). rewrite E8 in *.
  repeat match goal with H : Forall _ (_ :: _) |- _ => inversion H; clear H; subst end.
  rewrite top_byte by assumption. cbn [nsum fold_right]. lia.
Qed.
