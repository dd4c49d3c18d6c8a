(** C01 Morton codes, C02 hash bijections, C03 bit utilities. *)
From Verif Require Import Prelude BitsModel BitsSpec BitsProofs BitsProofs2 BitsProofs3 HashModel HashProofs.
Local Open Scope N_scope.

(** ---------------- C01 ---------------- *)
(** the expansions put input bit k at output bit 3k and nothing else *)
Theorem C01_expand_interleaves :
  (forall x, x < 2 ^ 10 -> spread3 x (expand_bits_32 x)) /\ (forall x, x < 2 ^ 21 -> spread3 x (expand_bits_64 x)).
Proof. exact (conj expand32_ok expand64_ok). Qed.
Print Assumptions C01_expand_interleaves.

Theorem C01_compact_inverts_expand :
  (forall x, x < 2 ^ 10 -> compact_bits_32 (expand_bits_32 x) = x) /\
  (forall x, x < 2 ^ 21 -> compact_bits_64 (expand_bits_64 x) = x).
Proof. exact (conj compact_expand32 compact_expand64). Qed.
Print Assumptions C01_compact_inverts_expand.

(** every bit of the 3-D code, and the decoder *)
Theorem C01_morton_32 : forall x y z, x < 2 ^ 10 -> y < 2 ^ 10 -> z < 2 ^ 10 ->
  let m := morton_3d_32 x y z in
  (forall i, N.testbit m (3 * i) = N.testbit z i /\ N.testbit m (3 * i + 1) = N.testbit y i /\ N.testbit m (3 * i + 2) = N.testbit x i) /\
  compact_bits_32 (N.shiftr m 2) = x /\ compact_bits_32 (N.shiftr m 1) = y /\ compact_bits_32 m = z.
Proof. exact morton32_all. Qed.
Print Assumptions C01_morton_32.
Theorem C01_morton_64 : forall x y z, x < 2 ^ 21 -> y < 2 ^ 21 -> z < 2 ^ 21 ->
  let m := morton_3d_64 x y z in
  (forall i, N.testbit m (3 * i) = N.testbit z i /\ N.testbit m (3 * i + 1) = N.testbit y i /\ N.testbit m (3 * i + 2) = N.testbit x i) /\
  compact_bits_64 (N.shiftr m 2) = x /\ compact_bits_64 (N.shiftr m 1) = y /\ compact_bits_64 m = z.
Proof. exact morton64_all. Qed.
Print Assumptions C01_morton_64.

Example C01_case : morton_3d_64 1000000 5 2097151 = 1976293614920438475 /\ 1000000 < 2 ^ 21.
Proof. split; vm_compute; reflexivity. Qed.

(** ---------------- C02 ---------------- *)
Theorem C02_hash32_bijection : forall x, x < 2 ^ 32 ->
  (unhash32 (hash32 x) = x /\ hash32 x < 2 ^ 32) /\ (hash32 (unhash32 x) = x /\ unhash32 x < 2 ^ 32).
Proof. exact (fun x H => conj (hash32_inv x H) (unhash32_inv x H)). Qed.
Print Assumptions C02_hash32_bijection.
Theorem C02_hash64_bijection : forall x, x < 2 ^ 64 ->
  (unhash64 (hash64 x) = x /\ hash64 x < 2 ^ 64) /\ (hash64 (unhash64 x) = x /\ unhash64 x < 2 ^ 64).
Proof. exact (fun x H => conj (hash64_inv x H) (unhash64_inv x H)). Qed.
Print Assumptions C02_hash64_bijection.
Theorem C02_twang_bijection : forall k, k < 2 ^ 64 ->
  (twang_unmix64 (twang_mix64 k) = k /\ twang_mix64 k < 2 ^ 64) /\ (twang_mix64 (twang_unmix64 k) = k /\ twang_unmix64 k < 2 ^ 64).
Proof. exact (fun x H => conj (mix_inv x H) (unmix_inv x H)). Qed.
Print Assumptions C02_twang_bijection.
(** combining into a fixed seed never merges two different values *)
Theorem C02_hash_combine_injective : forall w seed a b, a < 2 ^ w -> b < 2 ^ w ->
  hash_combine w seed a = hash_combine w seed b -> a = b.
Proof. exact combine_inj. Qed.
Print Assumptions C02_hash_combine_injective.
Example C02_case : hash32 1 = 824515495 /\ hash64 1 = 6238072747940578789 /\ twang_mix64 1 = 6614235796240398542.
Proof. repeat split; vm_compute; reflexivity. Qed.

(** ---------------- C03 ---------------- *)
Theorem C03_round_down : forall w n k, n < 2 ^ w -> k < w ->
  let r := round_down w n (2 ^ k) in r mod 2 ^ k = 0 /\ r <= n /\ n < r + 2 ^ k.
Proof. exact round_down_ok. Qed.
Print Assumptions C03_round_down.
(** the rounded-up value must fit the word *)
Theorem C03_round_up : forall w n k, n + 2 ^ k - 1 < 2 ^ w -> k < w ->
  let r := round_up w n (2 ^ k) in r mod 2 ^ k = 0 /\ n <= r /\ r < n + 2 ^ k.
Proof. exact round_up_ok. Qed.
Print Assumptions C03_round_up.
Example C03_round_case : round_down 64 1000 256 = 768 /\ round_up 64 1000 256 = 1024 /\ round_up 64 1024 256 = 1024.
Proof. repeat split; vm_compute; reflexivity. Qed.

Theorem C03_interleaved_bit_mask : forall w dim i, 0 < dim ->
  N.testbit (interleaved_bit_mask w dim) i = (i <? w) && (i mod dim =? 0).
Proof. exact interleaved_ok. Qed.
Print Assumptions C03_interleaved_bit_mask.
Theorem C03_bit_length : forall w n, n < 2 ^ w -> digits2 n (bit_length w n).
Proof. exact bit_length_ok. Qed.
Print Assumptions C03_bit_length.
Theorem C03_next_2pow : forall w n, 0 < w -> n <= 2 ^ (w - 1) -> exists r, next_2pow w n = Some r /\ least_pow2 n r.
Proof. exact next_2pow_ok. Qed.
Print Assumptions C03_next_2pow.
(** above half the range the shift count equals the word width: undefined behaviour *)
Theorem C03_next_2pow_top_undefined : forall w n, 0 < w -> 2 ^ (w - 1) < n -> n < 2 ^ w -> next_2pow w n = None.
Proof. exact next_2pow_ub. Qed.
Print Assumptions C03_next_2pow_top_undefined.
Theorem C03_next_power_of_two : forall i, 0 < i -> i <= 2 ^ 31 -> least_pow2 i (next_power_of_two i).
Proof. exact next_power_of_two_ok. Qed.
Print Assumptions C03_next_power_of_two.
Example C03_pow2_case : next_2pow 64 1000 = Some 1024 /\ next_power_of_two 1024 = 1024 /\ next_power_of_two 1025 = 2048
  /\ bit_length 64 1000 = 10 /\ next_power_of_two 0 = 0.
Proof. repeat split; vm_compute; reflexivity. Qed.

Theorem C03_num_bits_on : forall v, v < 2 ^ 64 -> num_bits_on v = N.of_nat (popcount 64 v).
Proof. exact num_bits_on_ok. Qed.
Print Assumptions C03_num_bits_on.
Theorem C03_binary_reverse : forall w x i, x < 2 ^ w -> N.testbit (binary_reverse w x) i = (i <? w) && N.testbit x (w - 1 - i).
Proof. exact binary_reverse_bits. Qed.
Print Assumptions C03_binary_reverse.
Theorem C03_count_leading_zeros : forall w x, x < 2 ^ w ->
  let c := count_leading_zeros w x in
  c <= w /\ (forall i, w - c <= i -> i < w -> N.testbit x i = false) /\ (c < w -> N.testbit x (w - 1 - c) = true).
Proof. exact clz_ok. Qed.
Print Assumptions C03_count_leading_zeros.
Theorem C03_is_bit_on : forall m b, b < 64 -> is_bit_on m b = N.testbit m b.
Proof. exact is_bit_on_ok. Qed.
Print Assumptions C03_is_bit_on.
Example C03_bits_case : num_bits_on 0xFF00FF = 16 /\ binary_reverse 32 1 = 2147483648 /\ count_leading_zeros 32 255 = 24
  /\ is_bit_on 32 5 = true.
Proof. repeat split; vm_compute; reflexivity. Qed.

(** bit_pack gathers, bit_spread scatters; the pair is the identity on the masked bits. The result type of bit_pack is
    int, so the round trip is stated for masks of at most 32 bits; masks 0 and 2^63 are excluded (next theorem). *)
Theorem C03_bit_pack : forall mask data, mask < 2 ^ 64 -> mask <> 0 -> mask <> 2 ^ 63 ->
  exists y, bit_pack mask data = Some (to_int y) /\ gathers mask data y.
Proof. exact bit_pack_ok. Qed.
Print Assumptions C03_bit_pack.
Theorem C03_bit_spread : forall mask data, mask < 2 ^ 64 -> mask <> 0 -> mask <> 2 ^ 63 ->
  exists y, bit_spread mask data = Some y /\ scatters mask data y.
Proof. exact bit_spread_ok. Qed.
Print Assumptions C03_bit_spread.
Theorem C03_spread_pack_roundtrip_partial : forall mask data, mask < 2 ^ 64 -> mask <> 0 -> mask <> 2 ^ 63 ->
  (popcount 64 mask <= 32)%nat ->
  exists d, bit_pack mask data = Some d /\ bit_spread mask d = Some (N.land data mask).
Proof. exact spread_pack. Qed.
Print Assumptions C03_spread_pack_roundtrip_partial.
Example C03_pack_case : bit_pack 0xF0F0 0xABCD = Some 0xAC%Z /\ bit_spread 0xF0F0 0xAC = Some 0xA0C0.
Proof. split; vm_compute; reflexivity. Qed.

(** Finding: with mask 0 or 2^63 both functions shift a 64-bit word by 64. *)
Theorem C03_bit_pack_spread_undefined_refuted : forall data d,
  bit_pack 0 data = None /\ bit_pack (2 ^ 63) data = None /\ bit_spread 0 d = None /\ bit_spread (2 ^ 63) d = None.
Proof.
  exact (fun data d => conj (proj1 (pack_ub data)) (conj (proj2 (pack_ub data)) (conj (proj1 (spread_ub d)) (proj2 (spread_ub d))))).
Qed.
Print Assumptions C03_bit_pack_spread_undefined_refuted.
