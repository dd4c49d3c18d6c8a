From Verif Require Import Prelude BitLin BitsModel BitsSpec BitsProofs BitsProofs2.
Local Open Scope N_scope.

Definition rinv (mask : N) (pos : nat) (rmask : N) : Prop :=
  forall i, N.testbit rmask i = (i <? 64) && (N.of_nat pos <=? i) && N.testbit mask (63 + N.of_nat pos - i).

Lemma rinv_init mask : mask < 2 ^ 64 -> rinv mask 0 (binary_reverse 64 mask).
Proof.
  intros H i. rewrite binary_reverse_bits by exact H. destruct (N.ltb_spec i 64); [|reflexivity].
  destruct (N.leb_spec (N.of_nat 0) i); [|lia]. cbn [andb]. f_equal; lia.
Qed.
Lemma rinv_lt mask pos r : rinv mask pos r -> r < 2 ^ 64.
Proof. intro H. apply lt_pow2_bits. intros i Hi. rewrite H. destruct (N.ltb_spec i 64); [lia|reflexivity]. Qed.
(** zero register: no set position from pos on *)
Lemma rinv_zero mask pos : rinv mask pos 0 -> forall p, (pos <= p < 64)%nat -> N.testbit mask (N.of_nat p) = false.
Proof.
  intros H p Hp. specialize (H (63 + N.of_nat pos - N.of_nat p)). rewrite N.bits_0 in H.
  destruct (N.ltb_spec (63 + N.of_nat pos - N.of_nat p) 64); [|lia].
  destruct (N.leb_spec (N.of_nat pos) (63 + N.of_nat pos - N.of_nat p)); [|lia].
  cbn [andb] in H. rewrite H. f_equal. lia.
Qed.
(** otherwise the leading-zero count is the distance to the next set position *)
Lemma rinv_next mask pos r : rinv mask pos r -> r <> 0 ->
  exists t, count_leading_zeros 64 r = N.of_nat t /\ (pos + t < 64)%nat /\ N.testbit mask (N.of_nat (pos + t)) = true /\
    (forall u, (u < t)%nat -> N.testbit mask (N.of_nat (pos + u)) = false).
Proof.
  intros H Nz. pose proof (rinv_lt _ _ _ H) as L. pose proof (clz_ok 64 r L) as (C1 & C2 & C3). cbn zeta in *.
  rewrite clz_eq in * by exact L. destruct (N.eqb_spec r 0); [contradiction|].
  assert (Hl : N.log2 r < 64) by (apply N.log2_lt_pow2; lia).
  pose proof (N.bit_log2 r Nz) as B. rewrite H in B. apply andb_true_iff in B. destruct B as [B B3].
  apply andb_true_iff in B. destruct B as [B1 B2].
  exists (N.to_nat (63 - N.log2 r)). split; [lia|]. split; [lia|]. split.
  - rewrite <- B3. f_equal. lia.
  - intros u Hu. pose proof (N.bits_above_log2 r (63 - N.of_nat u) ltac:(lia)) as Z. rewrite H in Z.
    destruct (N.ltb_spec (63 - N.of_nat u) 64); [|lia]. destruct (N.leb_spec (N.of_nat pos) (63 - N.of_nat u)); [|lia].
    cbn [andb] in Z. rewrite <- Z. f_equal. lia.
Qed.
Lemma rinv_shift mask pos r t : mask < 2 ^ 64 -> rinv mask pos r -> rinv mask (pos + t + 1) (wshl 64 r (N.of_nat t + 1)).
Proof.
  intros Hm H i. rewrite wshl_bits. destruct (N.ltb_spec i 64) as [L|L]; cbn [andb]; [|reflexivity].
  destruct (N.leb_spec (N.of_nat t + 1) i) as [L1|L1]; cbn [andb].
  - rewrite H. destruct (N.ltb_spec (i - (N.of_nat t + 1)) 64); [|lia]. cbn [andb].
    destruct (N.leb_spec (N.of_nat pos) (i - (N.of_nat t + 1))), (N.leb_spec (N.of_nat (pos + t + 1)) i); cbn [andb]; try reflexivity; try (f_equal; lia); lia.
  - destruct (N.leb_spec (N.of_nat (pos + t + 1)) i); [lia|reflexivity].
Qed.

Lemma pack_loop_ok mask data : mask < 2 ^ 64 -> mask <> 2 ^ 63 ->
  forall f pos r uld ulr cnt, (pos <= 64)%nat -> (64 - pos <= f)%nat -> rinv mask pos r ->
  uld = N.shiftr data (N.of_nat pos) -> cnt = N.of_nat (popcount pos mask) -> ulr < 2 ^ cnt ->
  (forall p, (p < pos)%nat -> N.testbit mask (N.of_nat p) = true ->
     N.testbit ulr (cnt - 1 - N.of_nat (popcount p mask)) = N.testbit data (N.of_nat p)) ->
  exists res, pack_loop f r uld ulr cnt = Some (res, N.of_nat (popcount 64 mask)) /\ res < 2 ^ N.of_nat (popcount 64 mask) /\
  (forall p, (p < 64)%nat -> N.testbit mask (N.of_nat p) = true ->
     N.testbit res (N.of_nat (popcount 64 mask) - 1 - N.of_nat (popcount p mask)) = N.testbit data (N.of_nat p)).
Proof.
  intros Hm Hm63. induction f as [|f IH]; intros pos r uld ulr cnt Hpos Hf HR -> -> Hlt HP.
  - assert (pos = 64%nat) as -> by lia. cbn [pack_loop].
    assert (r = 0) as ->.
    { apply N.bits_inj. intro i. rewrite HR, N.bits_0. destruct (N.ltb_spec i 64), (N.leb_spec (N.of_nat 64) i); try reflexivity; lia. }
    cbn [N.eqb]. exists ulr. auto.
  - cbn [pack_loop]. destruct (N.eqb_spec r 0) as [->|Nz].
    + pose proof (rinv_zero _ _ HR) as Z.
      assert (E : popcount 64 mask = popcount pos mask).
      { replace 64%nat with (pos + (64 - pos))%nat by lia. apply popcount_skip. intros u Hu. apply Z. lia. }
      exists ulr. rewrite E. split; [reflexivity|]. split; [exact Hlt|].
      intros p Hp Hb. apply HP; [|exact Hb]. destruct (Nat.lt_ge_cases p pos); [assumption|].
      rewrite Z in Hb by lia. discriminate.
    + destruct (rinv_next _ _ _ HR Nz) as (t & -> & Ht & Hb & Hz).
      unfold cshr. destruct (N.ltb_spec (N.of_nat t) 64) as [_|]; [|lia].
      unfold cshl. destruct (N.ltb_spec (N.of_nat t + 1) 64) as [L|L].
      2:{ exfalso. assert (t = 63 /\ pos = 0)%nat as [-> ->] by lia. apply Hm63. apply N.bits_inj. intro i.
          rewrite N.pow2_bits_eqb. destruct (N.eqb_spec 63 i) as [<-|Ne]; [exact Hb|].
          destruct (N.lt_ge_cases i 63) as [Li|Li].
          - specialize (Hz (N.to_nat i) ltac:(lia)). cbn [Nat.add] in Hz. rewrite N2Nat.id in Hz. exact Hz.
          - apply (testbit_small mask 64); [exact Hm|lia]. }
      assert (Ec : popcount (pos + t) mask = popcount pos mask) by (apply popcount_skip; exact Hz).
      assert (Ec1 : popcount (pos + t + 1) mask = S (popcount pos mask)).
      { rewrite Nat.add_1_r, popcount_S, Hb, Ec. lia. }
      set (c := popcount pos mask) in *.
      assert (Hc : (c <= 63)%nat).
      { pose proof (popcount_le (pos + t) mask). lia. }
      assert (W : wshl 64 ulr 1 = 2 * ulr).
      { unfold wshl. rewrite N.shiftl_mul_pow2. change (2 ^ 1) with 2. rewrite N.mod_small; [lia|].
        assert (2 ^ N.of_nat c <= 2 ^ 63) by (apply N.pow_le_mono_r; lia). change (2 ^ 64) with (2 ^ 63 * 2). lia. }
      rewrite W.
      assert (D : N.land (N.shiftr (N.shiftr data (N.of_nat pos)) (N.of_nat t)) 1 = N.b2n (N.testbit data (N.of_nat (pos + t)))).
      { rewrite odd_land, !N.shiftr_spec by lia. f_equal. f_equal. lia. }
      rewrite D.
      assert (NB : forall j, N.testbit (N.lor (2 * ulr) (N.b2n (N.testbit data (N.of_nat (pos + t))))) j =
         if j =? 0 then N.testbit data (N.of_nat (pos + t)) else N.testbit ulr (j - 1)).
      { intro j. rewrite N.lor_spec. destruct (N.eqb_spec j 0) as [->|Nj].
        - rewrite N.testbit_even_0. destruct (N.testbit data _); reflexivity.
        - replace j with (N.succ (j - 1)) at 1 by lia. rewrite N.testbit_even_succ by lia.
          rewrite (testbit_small _ 1 j); [apply orb_false_r| |lia]. destruct (N.testbit data _); reflexivity. }
      apply (IH (pos + t + 1)%nat).
      * lia.
      * lia.
      * apply rinv_shift; assumption.
      * rewrite !N.shiftr_shiftr. f_equal. lia.
      * rewrite Ec1. lia.
      * apply lt_pow2_bits. intros j Hj. rewrite NB. destruct (N.eqb_spec j 0); [lia|].
        apply (testbit_small _ (N.of_nat c)); [exact Hlt|lia].
      * intros p Hp Hbp. rewrite NB.
        destruct (Nat.eq_dec p (pos + t)) as [->|Np].
        -- rewrite Ec. replace (N.of_nat c + 1 - 1 - N.of_nat c) with 0 by lia. reflexivity.
        -- assert (Hpp : (p < pos)%nat).
           { destruct (Nat.lt_ge_cases p pos); [assumption|]. specialize (Hz (p - pos)%nat ltac:(lia)).
             replace (pos + (p - pos))%nat with p in Hz by lia. congruence. }
           pose proof (popcount_lt p pos mask Hpp Hbp) as PL. fold c in PL.
           destruct (N.eqb_spec (N.of_nat c + 1 - 1 - N.of_nat (popcount p mask)) 0); [lia|].
           rewrite <- (HP p Hpp Hbp). f_equal. lia.
Qed.

Lemma to_int_low y (r : nat) : (r < 32)%nat -> Z.testbit (to_int y) (Z.of_nat r) = N.testbit y (N.of_nat r).
Proof.
  intro Hr. unfold to_int. set (m := (Z.of_N y mod 2 ^ 32)%Z).
  assert (E : Z.testbit m (Z.of_nat r) = N.testbit y (N.of_nat r)).
  { unfold m. rewrite Z.mod_pow2_bits_low by lia. rewrite <- (nat_N_Z r), Z.testbit_of_N. reflexivity. }
  destruct (m <? 2 ^ 31)%Z; [exact E|].
  rewrite <- (Z.mod_pow2_bits_low (m - 2 ^ 32) 32) by lia. replace (m - 2 ^ 32)%Z with (m + (-1) * 2 ^ 32)%Z by lia.
  rewrite Z.mod_add by lia. unfold m. rewrite Z.mod_mod by lia. exact E.
Qed.
Lemma to_int_small y : y < 2 ^ 31 -> to_int y = Z.of_N y.
Proof.
  intro H. unfold to_int. rewrite Z.mod_small by lia. destruct (Z.ltb_spec (Z.of_N y) (2 ^ 31)); [reflexivity|lia].
Qed.

Lemma popcount_0 n : popcount n 0 = 0%nat.
Proof. induction n; [reflexivity|]. rewrite popcount_S, IHn, N.bits_0. reflexivity. Qed.
Lemma popcount_pos mask : mask < 2 ^ 64 -> mask <> 0 -> (0 < popcount 64 mask)%nat.
Proof.
  intros H Nz. assert (N.log2 mask < 64) by (apply N.log2_lt_pow2; lia).
  pose proof (popcount_lt (N.to_nat (N.log2 mask)) 64 mask ltac:(lia)) as L. rewrite N2Nat.id in L.
  specialize (L (N.bit_log2 mask Nz)). lia.
Qed.

Lemma bit_pack_ok mask data : mask < 2 ^ 64 -> mask <> 0 -> mask <> 2 ^ 63 ->
  exists y, bit_pack mask data = Some (to_int y) /\ gathers mask data y.
Proof.
  intros Hm H0 H63. unfold bit_pack.
  destruct (pack_loop_ok mask data Hm H63 64 0 (binary_reverse 64 mask) data 0 0) as (res & E & L & P);
    [lia|lia|apply rinv_init; exact Hm|symmetry; apply N.shiftr_0_r|reflexivity|reflexivity|intros; lia|].
  - rewrite E. set (c := popcount 64 mask) in *. pose proof (popcount_pos mask Hm H0) as Hc. fold c in Hc.
    assert (Hc2 : (c <= 64)%nat) by apply popcount_le.
    unfold cshl. destruct (N.ltb_spec (64 - N.of_nat c) 64); [|lia].
    exists (binary_reverse 64 (wshl 64 res (64 - N.of_nat c))). split; [reflexivity|].
    assert (LW : wshl 64 res (64 - N.of_nat c) < 2 ^ 64) by (apply N.mod_lt; apply N.pow_nonzero; lia).
    assert (B : forall i, N.testbit (binary_reverse 64 (wshl 64 res (64 - N.of_nat c))) i =
       (i <? N.of_nat c) && N.testbit res (N.of_nat c - 1 - i)).
    { intro i. rewrite binary_reverse_bits by exact LW. rewrite wshl_bits.
      destruct (N.ltb_spec i (N.of_nat c)).
      - destruct (N.ltb_spec i 64); [|lia]. cbn [andb]. destruct (N.ltb_spec (64 - 1 - i) 64); [|lia]. destruct (N.leb_spec (64 - N.of_nat c) (64 - 1 - i)); [|lia].
        cbn [andb]. f_equal. lia.
      - destruct (N.ltb_spec i 64); [|reflexivity]. destruct (N.leb_spec (64 - N.of_nat c) (64 - 1 - i)); [lia|]. rewrite andb_false_r. reflexivity. }
    split.
    + intros p Hp Hb. rewrite B. pose proof (popcount_lt p 64 mask Hp Hb) as PL. fold c in PL.
      destruct (N.ltb_spec (N.of_nat (popcount p mask)) (N.of_nat c)); [|lia]. cbn [andb]. apply P; assumption.
    + apply lt_pow2_bits. intros i Hi. rewrite B. fold c in Hi. destruct (N.ltb_spec i (N.of_nat c)); [lia|reflexivity].
Qed.

Lemma spread_loop_ok mask data : mask < 2 ^ 64 -> mask <> 2 ^ 63 ->
  forall f pos r dat res, (pos <= 64)%nat -> (64 - pos <= f)%nat -> rinv mask pos r ->
  dat = Z.shiftr data (Z.of_nat (popcount pos mask)) ->
  (forall j, N.testbit res j = (j <? N.of_nat pos) && N.testbit mask (N.of_nat pos - 1 - j)
                               && Z.testbit data (Z.of_nat (popcount (pos - 1 - N.to_nat j) mask))) ->
  (pos = 0%nat \/ N.testbit mask (N.of_nat (pos - 1)) = true) ->
  exists fin res', spread_loop f r dat res = Some res' /\ (fin <= 64)%nat /\
    (fin = 0%nat \/ N.testbit mask (N.of_nat (fin - 1)) = true) /\
    (forall p, (fin <= p < 64)%nat -> N.testbit mask (N.of_nat p) = false) /\
    (forall j, N.testbit res' j = (j <? N.of_nat fin) && N.testbit mask (N.of_nat fin - 1 - j)
                               && Z.testbit data (Z.of_nat (popcount (fin - 1 - N.to_nat j) mask))).
Proof.
  intros Hm Hm63. induction f as [|f IH]; intros pos r dat res Hpos Hf HR -> HP HB.
  - assert (pos = 64%nat) as -> by lia. cbn [spread_loop].
    assert (r = 0) as ->.
    { apply N.bits_inj. intro i. rewrite HR, N.bits_0. destruct (N.ltb_spec i 64), (N.leb_spec (N.of_nat 64) i); try reflexivity; lia. }
    cbn [N.eqb]. exists 64%nat, res. split; [reflexivity|]. split; [lia|]. split; [exact HB|]. split; [intros; lia|exact HP].
  - cbn [spread_loop]. destruct (N.eqb_spec r 0) as [->|Nz].
    + pose proof (rinv_zero _ _ HR) as Z.
      exists pos, res. auto.
    + destruct (rinv_next _ _ _ HR Nz) as (t & -> & Ht & Hb & Hz).
      unfold cshl. destruct (N.ltb_spec (N.of_nat t + 1) 64) as [L|L].
      2:{ exfalso. assert (t = 63 /\ pos = 0)%nat as [-> ->] by lia. apply Hm63. apply N.bits_inj. intro i.
          rewrite N.pow2_bits_eqb. destruct (N.eqb_spec 63 i) as [<-|Ne]; [exact Hb|].
          destruct (N.lt_ge_cases i 63) as [Li|Li].
          - specialize (Hz (N.to_nat i) ltac:(lia)). cbn [Nat.add] in Hz. rewrite N2Nat.id in Hz. exact Hz.
          - apply (testbit_small mask 64); [exact Hm|lia]. }
      assert (Ec : popcount (pos + t) mask = popcount pos mask) by (apply popcount_skip; exact Hz).
      assert (Ec1 : popcount (pos + t + 1) mask = S (popcount pos mask)).
      { rewrite Nat.add_1_r, popcount_S, Hb, Ec. lia. }
      apply (IH (pos + t + 1)%nat).
      * lia.
      * lia.
      * apply rinv_shift; assumption.
      * rewrite Ec1, Z.shiftr_shiftr by lia. f_equal. lia.
      * intro j. rewrite N.lor_spec, wshl_bits.
        assert (BD : forall j, N.testbit (Z.to_N (Z.land (Z.shiftr data (Z.of_nat (popcount pos mask))) 1)) j =
           (j =? 0) && Z.testbit data (Z.of_nat (popcount pos mask))).
        { intro i. change 1%Z with (Z.ones 1). rewrite Z.land_ones by lia. change (2 ^ 1)%Z with 2%Z.
          rewrite <- Z.bit0_mod. rewrite Z.shiftr_spec by lia. rewrite Z.add_0_l.
          destruct (Z.testbit data _); cbn [Z.b2z Z.to_N].
          - destruct i; reflexivity.
          - rewrite N.bits_0, andb_false_r. reflexivity. }
        rewrite BD. destruct (N.eqb_spec j 0) as [->|Nj].
        -- destruct (N.leb_spec (N.of_nat t + 1) 0); [lia|]. rewrite andb_false_r. cbn [andb orb].
           destruct (N.ltb_spec 0 (N.of_nat (pos + t + 1))); [|lia]. cbn [andb].
           replace (N.of_nat (pos + t + 1) - 1 - 0) with (N.of_nat (pos + t)) by lia. rewrite Hb. cbn [andb].
           replace (pos + t + 1 - 1 - N.to_nat 0)%nat with (pos + t)%nat by lia. rewrite Ec. reflexivity.
        -- cbn [andb]. rewrite orb_false_r.
           destruct (N.lt_ge_cases j (N.of_nat t + 1)) as [Lj|Lj].
           ++ destruct (N.leb_spec (N.of_nat t + 1) j); [lia|]. rewrite andb_false_r. cbn [andb].
              specialize (Hz (t - N.to_nat j)%nat ltac:(lia)).
              replace (N.of_nat (pos + t + 1) - 1 - j) with (N.of_nat (pos + (t - N.to_nat j))) by lia.
              rewrite Hz. rewrite andb_false_r. reflexivity.
           ++ destruct (N.leb_spec (N.of_nat t + 1) j); [|lia]. rewrite andb_true_r. rewrite HP.
              destruct (N.ltb_spec j (N.of_nat (pos + t + 1))).
              ** destruct (N.ltb_spec (j - (N.of_nat t + 1)) (N.of_nat pos)); [|lia]. destruct (N.ltb_spec j 64); [|lia]. cbn [andb]. f_equal.
                 --- f_equal. lia.
                 --- f_equal. f_equal. f_equal. lia.
              ** destruct (N.ltb_spec (j - (N.of_nat t + 1)) (N.of_nat pos)); [lia|]. rewrite andb_false_r. reflexivity.
      * right. replace (pos + t + 1 - 1)%nat with (pos + t)%nat by lia. exact Hb.
Qed.

Lemma bit_spread_ok mask data : mask < 2 ^ 64 -> mask <> 0 -> mask <> 2 ^ 63 ->
  exists y, bit_spread mask data = Some y /\ scatters mask data y.
Proof.
  intros Hm H0 H63. unfold bit_spread.
  destruct (spread_loop_ok mask data Hm H63 64 0 (binary_reverse 64 mask) data 0) as (fin & res & E & Hfin & HB & HZ & P);
    [lia|lia|apply rinv_init; exact Hm|symmetry; apply Z.shiftr_0_r| |left; reflexivity|].
  - intro j. rewrite N.bits_0. destruct (N.ltb_spec j (N.of_nat 0)); [lia|reflexivity].
  - rewrite E. pose proof (clz_eq 64 mask Hm) as C. destruct (N.eqb_spec mask 0); [contradiction|].
    assert (Hl : N.log2 mask < 64) by (apply N.log2_lt_pow2; lia).
    assert (F : N.of_nat fin = N.log2 mask + 1).
    { pose proof (N.bit_log2 mask H0) as B. destruct HB as [->|HB].
      - specialize (HZ (N.to_nat (N.log2 mask)) ltac:(lia)). rewrite N2Nat.id in HZ. congruence.
      - destruct (Nat.eq_dec fin 0) as [Zf|Zf].
        { subst fin. specialize (HZ (N.to_nat (N.log2 mask)) ltac:(lia)). rewrite N2Nat.id in HZ. congruence. }
        assert (N.of_nat (fin - 1) <= N.log2 mask).
        { destruct (N.le_gt_cases (N.of_nat (fin - 1)) (N.log2 mask)); [assumption|]. rewrite N.bits_above_log2 in HB by assumption. discriminate. }
        assert (N.log2 mask < N.of_nat fin); [|lia].
        destruct (N.lt_ge_cases (N.log2 mask) (N.of_nat fin)); [assumption|].
        specialize (HZ (N.to_nat (N.log2 mask)) ltac:(lia)). rewrite N2Nat.id in HZ. congruence. }
    rewrite C. unfold cshr. destruct (N.ltb_spec (64 - 1 - N.log2 mask) 64); [|lia].
    eexists. split; [reflexivity|]. intro p.
    assert (LR : res < 2 ^ 64).
    { apply lt_pow2_bits. intros i Hi. rewrite P. destruct (N.ltb_spec i (N.of_nat fin)); [lia|reflexivity]. }
    rewrite N.shiftr_spec by lia. rewrite binary_reverse_bits by exact LR.
    destruct (N.ltb_spec (N.of_nat p + (64 - 1 - N.log2 mask)) 64) as [L|L]; cbn [andb].
    + rewrite P. destruct (N.ltb_spec (64 - 1 - (N.of_nat p + (64 - 1 - N.log2 mask))) (N.of_nat fin)); [|lia]. cbn [andb].
      f_equal; [f_equal; lia|]. f_equal. f_equal. f_equal. lia.
    + rewrite N.bits_above_log2 by lia. reflexivity.
Qed.

(** round trips *)
Lemma spread_pack mask data : mask < 2 ^ 64 -> mask <> 0 -> mask <> 2 ^ 63 -> (popcount 64 mask <= 32)%nat ->
  exists d, bit_pack mask data = Some d /\ bit_spread mask d = Some (N.land data mask).
Proof.
  intros Hm H0 H63 Hp. destruct (bit_pack_ok mask data Hm H0 H63) as (y & E & G1 & G2).
  exists (to_int y). split; [exact E|]. destruct (bit_spread_ok mask (to_int y) Hm H0 H63) as (z & E2 & S). rewrite E2. f_equal.
  apply bits_ext. intro p. rewrite S, N.land_spec. rewrite andb_comm.
  destruct (N.testbit mask (N.of_nat p)) eqn:B; [|rewrite !andb_false_r; reflexivity]. rewrite !andb_true_r.
  assert (Lp : (p < 64)%nat).
  { destruct (Nat.lt_ge_cases p 64); [assumption|]. rewrite (testbit_small mask 64) in B by (assumption || lia). discriminate. }
  pose proof (popcount_lt p 64 mask Lp B). rewrite to_int_low by lia. apply G1; assumption.
Qed.
Lemma pack_ub data : bit_pack 0 data = None /\ bit_pack (2 ^ 63) data = None.
Proof. split; reflexivity. Qed.
Lemma spread_ub data : bit_spread 0 data = None /\ bit_spread (2 ^ 63) data = None.
Proof. split; reflexivity. Qed.
