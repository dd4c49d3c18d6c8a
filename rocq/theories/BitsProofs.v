From Verif Require Import Prelude BitLin BitsModel BitsSpec.
Local Open Scope N_scope.

(** ---- Morton ---- *)
Definition e32 (e : bx) : bx :=
  BAnd (BMul (BAnd (BMul (BAnd (BMul (BAnd (BMul e 16) 0xFF0000FF) 8) 0x0F00F00F) 4) 0xC30C30C3) 2) 0x49249249.
Lemma e32_den e x : den 32 (e32 e) x = expand_bits_32 (den 32 e x).
Proof. reflexivity. Qed.
Definition st64 (e : bx) (k : nat) (c : N) : bx := BAnd (BOr e (BShl e k)) c.
Definition e64 (e : bx) : bx :=
  st64 (st64 (st64 (st64 (st64 (BAnd e 0x1fffff) 32 0x1f00000000ffff) 16 0x1f0000ff0000ff)
   8 0x100f00f00f00f00f) 4 0x10c30c30c30c30c3) 2 0x1249249249249249.
Lemma e64_den e x : den 64 (e64 e) x = expand_bits_64 (den 64 e x).
Proof. reflexivity. Qed.
Definition ct (e : bx) (k : nat) (c : N) : bx := BAnd (BXor e (BShr e k)) c.
Definition c32 (e : bx) : bx :=
  ct (ct (ct (ct (BAnd e 0x9249249) 2 0x30c30c3) 4 0x0300f00f) 8 0x30000ff) 16 0x000003ff.
Lemma c32_den e x : den 32 (c32 e) x = compact_bits_32 (den 32 e x).
Proof. reflexivity. Qed.
Definition c64 (e : bx) : bx :=
  ct (ct (ct (ct (ct (BAnd e 0x1249249249249249) 2 0x10c30c30c30c30c3) 4 0x100f00f00f00f00f) 8 0x1f0000ff0000ff)
   16 0x1f00000000ffff) 32 0x1fffff.
Lemma c64_den e x : den 64 (c64 e) x mod 2 ^ 32 = compact_bits_64 (den 64 e x).
Proof. reflexivity. Qed.

Definition third (i : nat) : option nat := if (i mod 3 =? 0)%nat then Some (i / 3)%nat else None.
Definition third_n (n i : nat) : option nat := if (i mod 3 =? 0)%nat && (i / 3 <? n)%nat then Some (i / 3)%nat else None.

Lemma spread3_of x y (len : nat) n : x < 2 ^ N.of_nat n -> (3 * n <= len)%nat ->
  (forall i, N.testbit y (N.of_nat i) =
    if (i <? len)%nat then match third_n n i with Some k => N.testbit x (N.of_nat k) | None => false end else false) ->
  spread3 x y.
Proof.
  intros Hx Hl H i. rewrite <- (N2Nat.id i). set (j := N.to_nat i). rewrite H. unfold third_n.
  replace (N.of_nat j mod 3 =? 0) with (j mod 3 =? 0)%nat.
  2:{ replace (N.of_nat j mod 3) with (N.of_nat (j mod 3)) by (rewrite Nat2N.inj_mod; reflexivity). lia. }
  replace (N.of_nat j / 3) with (N.of_nat (j / 3)) by (rewrite Nat2N.inj_div; reflexivity).
  destruct (j mod 3 =? 0)%nat eqn:E; cbn [andb]; [|destruct (j <? len)%nat; reflexivity].
  destruct (Nat.ltb_spec (j / 3) n) as [L|L].
  - assert (j < len)%nat by (apply Nat.eqb_eq in E; dmlia).
    destruct (Nat.ltb_spec j len); [reflexivity|lia].
  - rewrite (testbit_small x (N.of_nat n)) by (assumption || lia). destruct (j <? len)%nat; reflexivity.
Qed.

Lemma expand32_ok x : x < 2 ^ 10 -> spread3 x (expand_bits_32 x).
Proof.
  intro Hx. assert (exists s, sym 32 10 (e32 BX) = Some s /\ is_perm (third_n 10) s = true /\ length s = 32%nat) as (s & H1 & H2 & H3).
  { vm_compute. eexists. split; [reflexivity|]. split; reflexivity. }
  apply (spread3_of _ _ 32 10); [exact Hx|lia|]. intro i.
  pose proof (sym_perm 32 10 _ _ x _ Hx H1 H2 i) as H. rewrite H3 in H.
  change (N.of_nat 32) with 32 in H. rewrite e32_den in H. exact H.
Qed.
Lemma expand64_ok x : x < 2 ^ 21 -> spread3 x (expand_bits_64 x).
Proof.
  intro Hx. assert (exists s, sym 64 21 (e64 BX) = Some s /\ is_perm (third_n 21) s = true /\ length s = 64%nat) as (s & H1 & H2 & H3).
  { vm_compute. eexists. split; [reflexivity|]. split; reflexivity. }
  apply (spread3_of _ _ 64 21); [exact Hx|lia|]. intro i.
  pose proof (sym_perm 64 21 _ _ x _ Hx H1 H2 i) as H. rewrite H3 in H.
  change (N.of_nat 64) with 64 in H. rewrite e64_den in H. exact H.
Qed.

(** compaction picks bits 0,3,6,... *)
Definition third_inv (n i : nat) : option nat := if (i <? n)%nat then Some (3 * i)%nat else None.
Lemma compact32_bits x i : x < 2 ^ 32 -> N.testbit (compact_bits_32 x) (N.of_nat i) =
  if (i <? 10)%nat then N.testbit x (N.of_nat (3 * i)) else false.
Proof.
  intro Hx. assert (exists s, sym 32 32 (c32 BX) = Some s /\ is_perm (third_inv 10) s = true /\ length s = 32%nat) as (s & H1 & H2 & H3).
  { vm_compute. eexists. split; [reflexivity|]. split; reflexivity. }
  pose proof (sym_perm 32 32 _ _ x _ Hx H1 H2 i) as H. rewrite H3 in H.
  change (N.of_nat 32) with 32 in H. rewrite c32_den in H. cbn [den] in H. rewrite H. unfold third_inv.
  destruct (Nat.ltb_spec i 32), (Nat.ltb_spec i 10); try reflexivity; lia.
Qed.
Lemma compact64_bits x i : x < 2 ^ 64 -> N.testbit (compact_bits_64 x) (N.of_nat i) =
  if (i <? 21)%nat then N.testbit x (N.of_nat (3 * i)) else false.
Proof.
  intro Hx. assert (exists s, sym 64 64 (c64 BX) = Some s /\ is_perm (third_inv 21) s = true /\ length s = 64%nat) as (s & H1 & H2 & H3).
  { vm_compute. eexists. split; [reflexivity|]. split; reflexivity. }
  pose proof (sym_perm 64 64 _ _ x _ Hx H1 H2 i) as H. rewrite H3 in H.
  change (N.of_nat 64) with 64 in H. change (compact_bits_64 x) with (den 64 (c64 BX) x mod 2 ^ 32).
  destruct (Nat.lt_ge_cases i 32) as [L|L].
  - rewrite N.mod_pow2_bits_low by lia. rewrite H. unfold third_inv.
    destruct (Nat.ltb_spec i 64), (Nat.ltb_spec i 21); try reflexivity; lia.
  - rewrite N.mod_pow2_bits_high by lia. destruct (Nat.ltb_spec i 21); [lia|reflexivity].
Qed.

Lemma lt_pow2_bits y n : (forall i, n <= i -> N.testbit y i = false) -> y < 2 ^ n.
Proof.
  intro H. destruct (N.eq_dec y 0) as [->|Ne]; [apply N.neq_0_lt_0, N.pow_nonzero; lia|].
  destruct (N.lt_ge_cases (N.log2 y) n) as [L|L].
  - apply N.log2_lt_pow2; lia.
  - pose proof (N.bit_log2 y Ne) as B. rewrite H in B by lia. discriminate.
Qed.

Lemma spread3_lt x y n : spread3 x y -> x < 2 ^ n -> 1 <= n -> y < 2 ^ (3 * n - 2).
Proof.
  intros H Hx Hn. apply lt_pow2_bits. intros i Hi. rewrite H. destruct (N.eqb_spec (i mod 3) 0) as [E|E]; [|reflexivity].
  apply (testbit_small x n); [exact Hx|]. dmlia.
Qed.

Lemma wshl_bits w a k i : N.testbit (wshl w a k) i = (i <? w) && (k <=? i) && N.testbit a (i - k).
Proof.
  unfold wshl. destruct (N.ltb_spec i w) as [L|L].
  - rewrite N.mod_pow2_bits_low by lia. destruct (N.leb_spec k i) as [Lk|Lk]; cbn.
    + apply N.shiftl_spec_high'. lia.
    + apply N.shiftl_spec_low. lia.
  - rewrite N.mod_pow2_bits_high by lia. reflexivity.
Qed.

(** three interleaved words *)
Lemma morton_bits w ex ey ez x y z i :
  spread3 x ex -> spread3 y ey -> spread3 z ez -> ex < 2 ^ (w - 2) -> ey < 2 ^ (w - 2) -> ez < 2 ^ (w - 2) -> 2 <= w ->
  N.testbit (N.lor (N.lor (wshl w ex 2) (wshl w ey 1)) ez) i =
  match i mod 3 with 0 => N.testbit z (i / 3) | 1 => N.testbit y (i / 3) | _ => N.testbit x (i / 3) end.
Proof.
  intros Hx Hy Hz Lx Ly Lz Hw. rewrite !N.lor_spec, !wshl_bits.
  assert (Bx : (i <? w) && (2 <=? i) && N.testbit ex (i - 2) = (2 <=? i) && N.testbit ex (i - 2)).
  { destruct (N.ltb_spec i w); [reflexivity|]. rewrite (testbit_small ex (w - 2)) by (assumption || lia).
    rewrite !andb_false_r. reflexivity. }
  assert (By : (i <? w) && (1 <=? i) && N.testbit ey (i - 1) = (1 <=? i) && N.testbit ey (i - 1)).
  { destruct (N.ltb_spec i w); [reflexivity|]. rewrite (testbit_small ey (w - 2)) by (assumption || lia).
    rewrite !andb_false_r. reflexivity. }
  rewrite Bx, By, (Hx (i - 2)), (Hy (i - 1)), (Hz i).
  assert (C : i mod 3 = 0 \/ i mod 3 = 1 \/ i mod 3 = 2) by dmlia.
  destruct C as [E|[E|E]]; rewrite E; cbn [N.eqb].
  - replace ((2 <=? i) && (if (i - 2) mod 3 =? 0 then N.testbit x ((i - 2) / 3) else false)) with false.
    + replace ((1 <=? i) && (if (i - 1) mod 3 =? 0 then N.testbit y ((i - 1) / 3) else false)) with false; [reflexivity|].
      destruct (N.leb_spec 1 i); [|reflexivity]. destruct (N.eqb_spec ((i - 1) mod 3) 0); [exfalso; dmlia|reflexivity].
    + destruct (N.leb_spec 2 i); [|reflexivity]. destruct (N.eqb_spec ((i - 2) mod 3) 0); [exfalso; dmlia|reflexivity].
  - replace ((2 <=? i) && (if (i - 2) mod 3 =? 0 then N.testbit x ((i - 2) / 3) else false)) with false.
    + destruct (N.leb_spec 1 i); [|exfalso; dmlia]. cbn. destruct (N.eqb_spec ((i - 1) mod 3) 0); [|exfalso; dmlia].
      rewrite orb_false_r. f_equal. dmlia.
    + destruct (N.leb_spec 2 i); [|reflexivity]. destruct (N.eqb_spec ((i - 2) mod 3) 0); [exfalso; dmlia|reflexivity].
  - destruct (N.leb_spec 2 i); [|exfalso; dmlia]. destruct (N.eqb_spec ((i - 2) mod 3) 0); [|exfalso; dmlia].
    replace ((1 <=? i) && (if (i - 1) mod 3 =? 0 then N.testbit y ((i - 1) / 3) else false)) with false.
    + cbn. rewrite !orb_false_r. f_equal. dmlia.
    + destruct (N.leb_spec 1 i); [|reflexivity]. destruct (N.eqb_spec ((i - 1) mod 3) 0); [exfalso; dmlia|reflexivity].
Qed.

Lemma morton32_bits x y z i : x < 2 ^ 10 -> y < 2 ^ 10 -> z < 2 ^ 10 ->
  N.testbit (morton_3d_32 x y z) i =
  match i mod 3 with 0 => N.testbit z (i / 3) | 1 => N.testbit y (i / 3) | _ => N.testbit x (i / 3) end.
Proof.
  intros Hx Hy Hz. unfold morton_3d_32.
  pose proof (expand32_ok x Hx) as Sx. pose proof (expand32_ok y Hy) as Sy. pose proof (expand32_ok z Hz) as Sz.
  apply morton_bits; auto; try lia.
  - eapply N.lt_le_trans; [eapply (spread3_lt x _ 10); eauto; lia|apply N.pow_le_mono_r; lia].
  - eapply N.lt_le_trans; [eapply (spread3_lt y _ 10); eauto; lia|apply N.pow_le_mono_r; lia].
  - eapply N.lt_le_trans; [eapply (spread3_lt z _ 10); eauto; lia|apply N.pow_le_mono_r; lia].
Qed.
Lemma morton64_bits x y z i : x < 2 ^ 21 -> y < 2 ^ 21 -> z < 2 ^ 21 ->
  N.testbit (morton_3d_64 x y z) i =
  match i mod 3 with 0 => N.testbit z (i / 3) | 1 => N.testbit y (i / 3) | _ => N.testbit x (i / 3) end.
Proof.
  intros Hx Hy Hz. unfold morton_3d_64.
  pose proof (expand64_ok x Hx) as Sx. pose proof (expand64_ok y Hy) as Sy. pose proof (expand64_ok z Hz) as Sz.
  apply morton_bits; auto; try lia.
  - eapply N.lt_le_trans; [eapply (spread3_lt x _ 21); eauto; lia|apply N.pow_le_mono_r; lia].
  - eapply N.lt_le_trans; [eapply (spread3_lt y _ 21); eauto; lia|apply N.pow_le_mono_r; lia].
  - eapply N.lt_le_trans; [eapply (spread3_lt z _ 21); eauto; lia|apply N.pow_le_mono_r; lia].
Qed.

Lemma morton_lt m x y z n : (forall i, N.testbit m i =
  match i mod 3 with 0 => N.testbit z (i / 3) | 1 => N.testbit y (i / 3) | _ => N.testbit x (i / 3) end) ->
  x < 2 ^ n -> y < 2 ^ n -> z < 2 ^ n -> m < 2 ^ (3 * n).
Proof.
  intros H Hx Hy Hz. apply lt_pow2_bits. intros i Hi. rewrite H. assert (n <= i / 3) by dmlia.
  destruct (i mod 3) as [|[p|p|]]; (apply (testbit_small _ n); [assumption|lia]).
Qed.

Lemma compact_of cmp m t x n (nb : nat) w : (forall i, N.testbit m (3 * i + t) = N.testbit x i) -> x < 2 ^ N.of_nat nb -> m < 2 ^ w ->
  w = n ->
  (forall v i, v < 2 ^ n -> N.testbit (cmp v) (N.of_nat i) = if (i <? nb)%nat then N.testbit v (N.of_nat (3 * i)) else false) ->
  cmp (N.shiftr m t) = x.
Proof.
  intros H Hx Hm -> Hc. apply bits_ext. intro i. rewrite Hc.
  - destruct (Nat.ltb_spec i nb) as [L|L].
    + rewrite N.shiftr_spec by lia. rewrite <- H. f_equal. lia.
    + symmetry. apply (testbit_small _ (N.of_nat nb)); [exact Hx|lia].
  - eapply N.le_lt_trans; [|exact Hm]. rewrite N.shiftr_div_pow2. apply N.div_le_upper_bound; [apply N.pow_nonzero; lia|].
    assert (1 <= 2 ^ t) by (apply N.lt_pred_le, N.neq_0_lt_0, N.pow_nonzero; lia). nia.
Qed.

Lemma mod3_0 i : (3 * i + 0) mod 3 = 0 /\ (3 * i + 0) / 3 = i. Proof. dmlia. Qed.
Lemma mod3_1 i : (3 * i + 1) mod 3 = 1 /\ (3 * i + 1) / 3 = i. Proof. dmlia. Qed.
Lemma mod3_2 i : (3 * i + 2) mod 3 = 2 /\ (3 * i + 2) / 3 = i. Proof. dmlia. Qed.

Lemma morton32_decode x y z : x < 2 ^ 10 -> y < 2 ^ 10 -> z < 2 ^ 10 ->
  let m := morton_3d_32 x y z in
  compact_bits_32 (N.shiftr m 2) = x /\ compact_bits_32 (N.shiftr m 1) = y /\ compact_bits_32 m = z.
Proof.
  intros Hx Hy Hz m.
  assert (B := fun i => morton32_bits x y z i Hx Hy Hz). fold m in B.
  assert (Hm : m < 2 ^ 32).
  { eapply N.lt_le_trans; [eapply (morton_lt m x y z 10); eauto|apply N.pow_le_mono_r; lia]. }
  split; [|split].
  - eapply (compact_of compact_bits_32 m 2 x 32 10 32); auto; [|apply compact32_bits].
    intro i. rewrite B. destruct (mod3_2 i) as [E1 E2]. rewrite E1, E2. reflexivity.
  - eapply (compact_of compact_bits_32 m 1 y 32 10 32); auto; [|apply compact32_bits].
    intro i. rewrite B. destruct (mod3_1 i) as [E1 E2]. rewrite E1, E2. reflexivity.
  - rewrite <- (N.shiftr_0_r m). eapply (compact_of compact_bits_32 m 0 z 32 10 32); auto; [|apply compact32_bits].
    intro i. rewrite B. destruct (mod3_0 i) as [E1 E2]. rewrite E1, E2. reflexivity.
Qed.
Lemma morton64_decode x y z : x < 2 ^ 21 -> y < 2 ^ 21 -> z < 2 ^ 21 ->
  let m := morton_3d_64 x y z in
  compact_bits_64 (N.shiftr m 2) = x /\ compact_bits_64 (N.shiftr m 1) = y /\ compact_bits_64 m = z.
Proof.
  intros Hx Hy Hz m.
  assert (B := fun i => morton64_bits x y z i Hx Hy Hz). fold m in B.
  assert (Hm : m < 2 ^ 64).
  { eapply N.lt_le_trans; [eapply (morton_lt m x y z 21); eauto|apply N.pow_le_mono_r; lia]. }
  split; [|split].
  - eapply (compact_of compact_bits_64 m 2 x 64 21 64); auto; [|apply compact64_bits].
    intro i. rewrite B. destruct (mod3_2 i) as [E1 E2]. rewrite E1, E2. reflexivity.
  - eapply (compact_of compact_bits_64 m 1 y 64 21 64); auto; [|apply compact64_bits].
    intro i. rewrite B. destruct (mod3_1 i) as [E1 E2]. rewrite E1, E2. reflexivity.
  - rewrite <- (N.shiftr_0_r m). eapply (compact_of compact_bits_64 m 0 z 64 21 64); auto; [|apply compact64_bits].
    intro i. rewrite B. destruct (mod3_0 i) as [E1 E2]. rewrite E1, E2. reflexivity.
Qed.

Lemma compact_expand32 x : x < 2 ^ 10 -> compact_bits_32 (expand_bits_32 x) = x.
Proof.
  intro Hx. assert (exists s, sym 32 10 (c32 (e32 BX)) = Some s /\ is_id 10 s = true) as (s & H1 & H2).
  { vm_compute. eexists. split; reflexivity. }
  pose proof (sym_id 32 10 _ s x Hx H1 H2) as H. change (N.of_nat 32) with 32 in H.
  rewrite c32_den, e32_den in H. exact H.
Qed.
Lemma compact_expand64 x : x < 2 ^ 21 -> compact_bits_64 (expand_bits_64 x) = x.
Proof.
  intro Hx. assert (exists s, sym 64 21 (c64 (e64 BX)) = Some s /\ is_id 21 s = true) as (s & H1 & H2).
  { vm_compute. eexists. split; reflexivity. }
  pose proof (sym_id 64 21 _ s x Hx H1 H2) as H. change (N.of_nat 64) with 64 in H.
  assert (E : compact_bits_64 (expand_bits_64 x) = den 64 (c64 (e64 BX)) x mod 2 ^ 32).
  { rewrite c64_den, e64_den. reflexivity. }
  rewrite E, H. apply N.mod_small. eapply N.lt_trans; [exact Hx|]. reflexivity.
Qed.

Lemma morton32_all x y z : x < 2 ^ 10 -> y < 2 ^ 10 -> z < 2 ^ 10 ->
  let m := morton_3d_32 x y z in
  (forall i, N.testbit m (3 * i) = N.testbit z i /\ N.testbit m (3 * i + 1) = N.testbit y i /\ N.testbit m (3 * i + 2) = N.testbit x i) /\
  compact_bits_32 (N.shiftr m 2) = x /\ compact_bits_32 (N.shiftr m 1) = y /\ compact_bits_32 m = z.
Proof.
  intros Hx Hy Hz. split; [|apply morton32_decode; assumption]. intro i. rewrite !morton32_bits by assumption.
  destruct (mod3_0 i) as [E1 E2]. rewrite N.add_0_r in E1, E2. destruct (mod3_1 i) as [E3 E4]. destruct (mod3_2 i) as [E5 E6].
  rewrite E1, E2, E3, E4, E5, E6. auto.
Qed.
Lemma morton64_all x y z : x < 2 ^ 21 -> y < 2 ^ 21 -> z < 2 ^ 21 ->
  let m := morton_3d_64 x y z in
  (forall i, N.testbit m (3 * i) = N.testbit z i /\ N.testbit m (3 * i + 1) = N.testbit y i /\ N.testbit m (3 * i + 2) = N.testbit x i) /\
  compact_bits_64 (N.shiftr m 2) = x /\ compact_bits_64 (N.shiftr m 1) = y /\ compact_bits_64 m = z.
Proof.
  intros Hx Hy Hz. split; [|apply morton64_decode; assumption]. intro i. rewrite !morton64_bits by assumption.
  destruct (mod3_0 i) as [E1 E2]. rewrite N.add_0_r in E1, E2. destruct (mod3_1 i) as [E3 E4]. destruct (mod3_2 i) as [E5 E6].
  rewrite E1, E2, E3, E4, E5, E6. auto.
Qed.
