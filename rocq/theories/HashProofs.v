From Verif Require Import Prelude BitLin BitsModel BitsProofs BitsProofs2 HashModel.
Local Open Scope N_scope.

Lemma wmul_inv w a b x : (a * b) mod 2 ^ w = 1 mod 2 ^ w -> x < 2 ^ w -> wmul w (wmul w x a) b = x.
Proof.
  intros H Hx. unfold wmul. assert (P : 2 ^ w <> 0) by (apply N.pow_nonzero; lia).
  rewrite N.mul_mod_idemp_l by exact P. rewrite <- N.mul_assoc. rewrite <- N.mul_mod_idemp_r by exact P.
  rewrite H, N.mul_mod_idemp_r by exact P. rewrite N.mul_1_r. apply N.mod_small. exact Hx.
Qed.
Lemma wmul_lt w a b : wmul w a b < 2 ^ w.
Proof. apply N.mod_lt, N.pow_nonzero. lia. Qed.
Lemma wadd_lt w a b : wadd w a b < 2 ^ w.
Proof. apply N.mod_lt, N.pow_nonzero. lia. Qed.
Lemma lxor_lt w a b : a < 2 ^ w -> b < 2 ^ w -> N.lxor a b < 2 ^ w.
Proof.
  intros Ha Hb. apply lt_pow2_bits. intros i Hi. rewrite N.lxor_spec, !(testbit_small _ w) by assumption. reflexivity.
Qed.
Lemma shr_lt w a k : a < 2 ^ w -> N.shiftr a k < 2 ^ w.
Proof.
  intros Ha. apply lt_pow2_bits. intros i Hi. rewrite N.shiftr_spec by lia. apply (testbit_small a w); [assumption|lia].
Qed.
#[global] Hint Resolve wmul_lt wadd_lt lxor_lt shr_lt : wlt.

(** prove den e x = x by symbolic evaluation *)
Ltac by_sym w win e x Hx :=
  let s := fresh in let H1 := fresh in let H2 := fresh in
  assert (exists s, sym w win e = Some s /\ is_id win s = true) as (s & H1 & H2)
    by (vm_compute; eexists; split; reflexivity);
  let H := fresh in
  pose proof (sym_id w win e s x Hx H1 H2) as H; exact H.

Lemma s32 x : x < 2 ^ 32 -> N.lxor (N.shiftr (N.lxor (N.shiftr x 16) x) 16) (N.lxor (N.shiftr x 16) x) = x.
Proof. intro Hx. pose (e := BXor (BShr BX 16) BX). by_sym 32%nat 32%nat (BXor (BShr e 16) e) x Hx. Qed.

Definition xs1 k x := N.lxor x (N.shiftr x k).
Definition xs2 k l x := N.lxor (N.lxor x (N.shiftr x k)) (N.shiftr x l).
Definition bs1 k e := BXor e (BShr e k).
Definition bs2 k l e := BXor (BXor e (BShr e k)) (BShr e l).

Lemma s64_31 x : x < 2 ^ 64 -> xs2 31 62 (xs1 31 x) = x.
Proof. intro Hx. by_sym 64%nat 64%nat (bs2 31 62 (bs1 31 BX)) x Hx. Qed.
Lemma s64_31' x : x < 2 ^ 64 -> xs1 31 (xs2 31 62 x) = x.
Proof. intro Hx. by_sym 64%nat 64%nat (bs1 31 (bs2 31 62 BX)) x Hx. Qed.
Lemma s64_27 x : x < 2 ^ 64 -> xs2 27 54 (xs1 27 x) = x.
Proof. intro Hx. by_sym 64%nat 64%nat (bs2 27 54 (bs1 27 BX)) x Hx. Qed.
Lemma s64_27' x : x < 2 ^ 64 -> xs1 27 (xs2 27 54 x) = x.
Proof. intro Hx. by_sym 64%nat 64%nat (bs1 27 (bs2 27 54 BX)) x Hx. Qed.
Lemma s64_30 x : x < 2 ^ 64 -> xs2 30 60 (xs1 30 x) = x.
Proof. intro Hx. by_sym 64%nat 64%nat (bs2 30 60 (bs1 30 BX)) x Hx. Qed.
Lemma s64_30' x : x < 2 ^ 64 -> xs1 30 (xs2 30 60 x) = x.
Proof. intro Hx. by_sym 64%nat 64%nat (bs1 30 (bs2 30 60 BX)) x Hx. Qed.

Lemma hash32_inv x : x < 2 ^ 32 -> unhash32 (hash32 x) = x /\ hash32 x < 2 ^ 32.
Proof.
  intro Hx. unfold unhash32, hash32. cbv zeta. split; [|auto 10 with wlt].
  rewrite s32 by auto with wlt. rewrite wmul_inv; [|reflexivity|auto with wlt].
  rewrite s32 by auto with wlt. rewrite wmul_inv; [|reflexivity|auto with wlt].
  apply s32. exact Hx.
Qed.
Lemma unhash32_inv x : x < 2 ^ 32 -> hash32 (unhash32 x) = x /\ unhash32 x < 2 ^ 32.
Proof.
  intro Hx. unfold unhash32, hash32. cbv zeta. split; [|auto 10 with wlt].
  rewrite s32 by auto with wlt. rewrite wmul_inv; [|reflexivity|auto with wlt].
  rewrite s32 by auto with wlt. rewrite wmul_inv; [|reflexivity|auto with wlt].
  apply s32. exact Hx.
Qed.
Lemma hash64_eq x : hash64 x = xs1 31 (wmul 64 (xs1 27 (wmul 64 (xs1 30 x) 0xbf58476d1ce4e5b9)) 0x94d049bb133111eb).
Proof. reflexivity. Qed.
Lemma unhash64_eq x : unhash64 x = xs2 30 60 (wmul 64 (xs2 27 54 (wmul 64 (xs2 31 62 x) 0x319642b2d24d8ec3)) 0x96de1b173f119089).
Proof. reflexivity. Qed.
Lemma xs1_lt k x : x < 2 ^ 64 -> xs1 k x < 2 ^ 64.
Proof. unfold xs1. auto with wlt. Qed.
Lemma xs2_lt k l x : x < 2 ^ 64 -> xs2 k l x < 2 ^ 64.
Proof. unfold xs2. auto with wlt. Qed.
#[global] Hint Resolve xs1_lt xs2_lt : wlt.
Lemma hash64_inv x : x < 2 ^ 64 -> unhash64 (hash64 x) = x /\ hash64 x < 2 ^ 64.
Proof.
  intro Hx. rewrite unhash64_eq, hash64_eq. split; [|auto 10 with wlt].
  rewrite s64_31 by auto with wlt. rewrite wmul_inv; [|reflexivity|auto with wlt].
  rewrite s64_27 by auto with wlt. rewrite wmul_inv; [|reflexivity|auto with wlt].
  apply s64_30. exact Hx.
Qed.
Lemma unhash64_inv x : x < 2 ^ 64 -> hash64 (unhash64 x) = x /\ unhash64 x < 2 ^ 64.
Proof.
  intro Hx. rewrite unhash64_eq, hash64_eq. split; [|auto 10 with wlt].
  rewrite s64_30' by auto with wlt. rewrite wmul_inv; [|reflexivity|auto with wlt].
  rewrite s64_27' by auto with wlt. rewrite wmul_inv; [|reflexivity|auto with wlt].
  apply s64_31'. exact Hx.
Qed.

(** twang *)
Definition xs24 x := N.lxor x (N.lxor (N.shiftr x 24) (N.shiftr x 48)).
Definition xs28 x := N.lxor x (N.lxor (N.shiftr x 28) (N.shiftr x 56)).
Definition xs14 x := N.lxor x (N.lxor (N.lxor (N.lxor (N.shiftr x 14) (N.shiftr x 28)) (N.shiftr x 42)) (N.shiftr x 56)).
Definition b24 e := BXor e (BXor (BShr e 24) (BShr e 48)).
Definition b28 e := BXor e (BXor (BShr e 28) (BShr e 56)).
Definition b14 e := BXor e (BXor (BXor (BXor (BShr e 14) (BShr e 28)) (BShr e 42)) (BShr e 56)).
Lemma t24 x : x < 2 ^ 64 -> xs24 (xs1 24 x) = x.
Proof. intro Hx. by_sym 64%nat 64%nat (b24 (bs1 24 BX)) x Hx. Qed.
Lemma t24' x : x < 2 ^ 64 -> xs1 24 (xs24 x) = x.
Proof. intro Hx. by_sym 64%nat 64%nat (bs1 24 (b24 BX)) x Hx. Qed.
Lemma t28 x : x < 2 ^ 64 -> xs28 (xs1 28 x) = x.
Proof. intro Hx. by_sym 64%nat 64%nat (b28 (bs1 28 BX)) x Hx. Qed.
Lemma t28' x : x < 2 ^ 64 -> xs1 28 (xs28 x) = x.
Proof. intro Hx. by_sym 64%nat 64%nat (bs1 28 (b28 BX)) x Hx. Qed.
Lemma t14 x : x < 2 ^ 64 -> xs14 (xs1 14 x) = x.
Proof. intro Hx. by_sym 64%nat 64%nat (b14 (bs1 14 BX)) x Hx. Qed.
Lemma t14' x : x < 2 ^ 64 -> xs1 14 (xs14 x) = x.
Proof. intro Hx. by_sym 64%nat 64%nat (bs1 14 (b14 BX)) x Hx. Qed.
Lemma xs24_lt x : x < 2 ^ 64 -> xs24 x < 2 ^ 64. Proof. unfold xs24. auto 10 with wlt. Qed.
Lemma xs28_lt x : x < 2 ^ 64 -> xs28 x < 2 ^ 64. Proof. unfold xs28. auto 10 with wlt. Qed.
Lemma xs14_lt x : x < 2 ^ 64 -> xs14 x < 2 ^ 64. Proof. unfold xs14. auto 10 with wlt. Qed.
#[global] Hint Resolve xs24_lt xs28_lt xs14_lt : wlt.

Lemma shl_add w x k : wadd w x (wshl w x k) = wmul w x (1 + 2 ^ k).
Proof.
  unfold wadd, wshl, wmul. assert (P : 2 ^ w <> 0) by (apply N.pow_nonzero; lia).
  rewrite N.add_mod_idemp_r by exact P. rewrite N.shiftl_mul_pow2. f_equal. lia.
Qed.
Lemma shl_add2 w x k l : wadd w (wadd w x (wshl w x k)) (wshl w x l) = wmul w x (1 + 2 ^ k + 2 ^ l).
Proof.
  rewrite shl_add. unfold wadd, wshl, wmul. assert (P : 2 ^ w <> 0) by (apply N.pow_nonzero; lia).
  rewrite N.add_mod_idemp_r, N.add_mod_idemp_l by exact P. rewrite N.shiftl_mul_pow2. f_equal. lia.
Qed.
Lemma wnot_eq w x : x < 2 ^ w -> wnot w x = 2 ^ w - 1 - x.
Proof.
  intro H. unfold wnot. pose proof (pow2_pos w).
  assert (E : N.land x (N.lxor x (N.ones w)) = 0).
  { apply N.bits_inj. intro i. rewrite N.land_spec, N.lxor_spec, N.bits_0. destruct (N.lt_ge_cases i w).
    - rewrite N.ones_spec_low by assumption. destruct (N.testbit x i); reflexivity.
    - rewrite (testbit_small x w) by assumption. reflexivity. }
  pose proof (N.add_nocarry_lxor _ _ E) as A. rewrite <- N.lxor_assoc, N.lxor_nilpotent, N.lxor_0_l in A.
  rewrite N.ones_equiv in A at 2. lia.
Qed.
(** (~k + (k<<21)) + 1 = k * (2^21 - 1) *)
Lemma first_step k : k < 2 ^ 64 -> wadd 64 (wadd 64 (wnot 64 k) (wshl 64 k 21)) 1 = wmul 64 k (2 ^ 21 - 1).
Proof.
  intro H. rewrite wnot_eq by exact H. unfold wadd, wshl, wmul. assert (P : 2 ^ 64 <> 0) by (apply N.pow_nonzero; lia).
  rewrite N.add_mod_idemp_l by exact P. rewrite N.shiftl_mul_pow2.
  rewrite N.add_mod_idemp_r, N.add_mod_idemp_l || idtac; try exact P.
  replace (2 ^ 64 - 1 - k + (k * 2 ^ 21) mod 2 ^ 64 + 1) with (2 ^ 64 - k + (k * 2 ^ 21) mod 2 ^ 64) by lia.
  rewrite N.add_mod_idemp_r by exact P.
  replace (2 ^ 64 - k + k * 2 ^ 21) with (k * (2 ^ 21 - 1) + 1 * 2 ^ 64) by lia.
  rewrite N.mod_add by exact P. reflexivity.
Qed.
Lemma wadd_inj w a b c : a < 2 ^ w -> b < 2 ^ w -> wadd w a c = wadd w b c -> a = b.
Proof.
  intros Ha Hb H. unfold wadd in H. pose proof (pow2_pos w).
  assert (E : (a + c + (2 ^ w - c mod 2 ^ w)) mod 2 ^ w = (b + c + (2 ^ w - c mod 2 ^ w)) mod 2 ^ w).
  { rewrite <- N.add_mod_idemp_l, H, N.add_mod_idemp_l by lia. reflexivity. }
  assert (Ec : forall z, z < 2 ^ w -> (z + c + (2 ^ w - c mod 2 ^ w)) mod 2 ^ w = z).
  { intros z Hz. pose proof (N.div_mod c (2 ^ w) ltac:(lia)). pose proof (N.mod_lt c (2 ^ w) ltac:(lia)).
    replace (z + c + (2 ^ w - c mod 2 ^ w)) with (z + (c / 2 ^ w + 1) * 2 ^ w) by lia.
    rewrite N.mod_add by lia. apply N.mod_small. exact Hz. }
  rewrite !Ec in E by assumption. exact E.
Qed.

Lemma mix_eq k : k < 2 ^ 64 -> exists a, a < 2 ^ 64 /\ wadd 64 a 1 = wmul 64 k (2 ^ 21 - 1) /\
  twang_mix64 k = wmul 64 (xs1 28 (wmul 64 (xs1 14 (wmul 64 (xs1 24 a) (1 + 2 ^ 3 + 2 ^ 8))) (1 + 2 ^ 2 + 2 ^ 4))) (1 + 2 ^ 31).
Proof.
  intro H. exists (wadd 64 (wnot 64 k) (wshl 64 k 21)). split; [auto with wlt|]. split; [apply first_step; exact H|].
  unfold twang_mix64. cbv zeta. rewrite !shl_add2, shl_add. reflexivity.
Qed.
Lemma unmix_eq k : twang_unmix64 k = wmul 64 (wadd 64 (xs24 (wmul 64 (xs14 (wmul 64 (xs28 (wmul 64 k 4611686016279904257)) 14933078535860113213)) 15244667743933553977)) 1) 9223367638806167551.
Proof. reflexivity. Qed.
Lemma mix_inv k : k < 2 ^ 64 -> twang_unmix64 (twang_mix64 k) = k /\ twang_mix64 k < 2 ^ 64.
Proof.
  intro H. destruct (mix_eq k H) as (a & Ha & Ea & Em). split; [|rewrite Em; auto with wlt].
  rewrite unmix_eq, Em.
  rewrite wmul_inv; [|reflexivity|auto with wlt]. rewrite t28 by auto with wlt.
  rewrite wmul_inv; [|reflexivity|auto with wlt]. rewrite t14 by auto with wlt.
  rewrite wmul_inv; [|reflexivity|auto with wlt]. rewrite t24 by auto with wlt.
  rewrite Ea. apply wmul_inv; [reflexivity|exact H].
Qed.
Lemma unmix_inv k : k < 2 ^ 64 -> twang_mix64 (twang_unmix64 k) = k /\ twang_unmix64 k < 2 ^ 64.
Proof.
  intro H. assert (L : twang_unmix64 k < 2 ^ 64) by (rewrite unmix_eq; auto with wlt). split; [|exact L].
  destruct (mix_eq _ L) as (a & Ha & Ea & Em). rewrite Em. rewrite unmix_eq in Ea.
  rewrite wmul_inv in Ea; [|reflexivity|auto with wlt]. apply wadd_inj in Ea; [|exact Ha|auto 10 with wlt]. rewrite Ea.
  rewrite t24' by auto with wlt. rewrite wmul_inv; [|reflexivity|auto with wlt].
  rewrite t14' by auto with wlt. rewrite wmul_inv; [|reflexivity|auto with wlt].
  rewrite t28' by auto with wlt. rewrite wmul_inv; [|reflexivity|auto with wlt]. reflexivity.
Qed.

Lemma combine_inj w seed a b : a < 2 ^ w -> b < 2 ^ w -> hash_combine w seed a = hash_combine w seed b -> a = b.
Proof.
  intros Ha Hb H. unfold hash_combine in H.
  destruct (match w with 16 => _ | 32 => _ | _ => _ end) as [c [l r]].
  assert (X : forall u v, N.lxor seed u = N.lxor seed v -> u = v).
  { intros u v E. apply (f_equal (N.lxor seed)) in E. rewrite <- !N.lxor_assoc, N.lxor_nilpotent, !N.lxor_0_l in E. exact E. }
  apply X in H. apply wadd_inj in H; [|apply wadd_lt|apply wadd_lt]. apply wadd_inj in H; [|apply wadd_lt|apply wadd_lt].
  apply wadd_inj in H; assumption.
Qed.
