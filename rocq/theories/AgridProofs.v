From Verif Require Import Prelude AgridModel AgridSpec.
Open Scope Z_scope.

Lemma lor_add a b n : 0 <= n -> 0 <= b < 2 ^ n -> Z.lor (Z.shiftl a n) b = a * 2 ^ n + b.
Proof.
  intros Hn Hb. rewrite <- Z.shiftl_mul_pow2 by lia.
  assert (H : Z.land (Z.shiftl a n) b = 0).
  { apply Z.bits_inj'. intros k Hk. rewrite Z.land_spec, Z.bits_0, Z.shiftl_spec by lia. destruct (Z.lt_ge_cases k n).
    - rewrite Z.testbit_neg_r by lia. reflexivity.
    - replace (Z.testbit b k) with false; [apply andb_false_r|]. symmetry. destruct (Z.eq_dec b 0) as [->|]; [apply Z.testbit_0_l|].
      apply Z.bits_above_log2; [lia|]. apply Z.lt_le_trans with n; [|lia]. apply Z.log2_lt_pow2; lia. }
  rewrite <- Z.lxor_lor by exact H. symmetry. apply Z.add_nocarry_lxor. exact H.
Qed.
Lemma land_mask x n : 0 <= n -> Z.land x (2 ^ n - 1) = x mod 2 ^ n.
Proof. intro H. replace (2 ^ n - 1) with (Z.ones n) by (rewrite Z.ones_equiv; lia). apply Z.land_ones. exact H. Qed.
Lemma land_origin x n : 0 <= n -> Z.land x (Z.lnot (2 ^ n - 1)) = x - x mod 2 ^ n.
Proof.
  intro H. replace (2 ^ n - 1) with (Z.ones n) by (rewrite Z.ones_equiv; lia).
  replace (Z.land x (Z.lnot (Z.ones n))) with (Z.ldiff x (Z.ones n)).
  - rewrite Z.ldiff_ones_r by exact H. rewrite Z.shiftl_mul_pow2, Z.shiftr_div_pow2 by exact H.
    pose proof (Z.div_mod x (2 ^ n) ltac:(pose proof (Z.pow_pos_nonneg 2 n); lia)). lia.
  - apply Z.bits_inj'. intros k Hk. rewrite Z.ldiff_spec, Z.land_spec, Z.lnot_spec by lia. reflexivity.
Qed.

Lemma shl_int_ok x k : 0 <= k < 32 -> 0 <= x -> x * 2 ^ k < 2 ^ 31 -> shl_int x k = Some (x * 2 ^ k).
Proof.
  intros Hk Hx H. unfold shl_int. rewrite Z.shiftl_mul_pow2 by lia.
  replace (0 <=? k) with true by lia. replace (k <? 32) with true by lia. replace (0 <=? x) with true by lia.
  replace (x * 2 ^ k <? 2 ^ 31) with true by lia. reflexivity.
Qed.

(** value of the lane of one component *)
Definition cellof (e s x : Z) : Z := (x mod 2 ^ e) / 2 ^ s.
Lemma lane_eq T C i s x : 0 <= s -> 0 <= ebit T C i -> lane T C i s x = cellof (ebit T C i) s x.
Proof. intros Hs He. unfold lane, cell_mask, cellof. rewrite land_mask, Z.shiftr_div_pow2 by lia. reflexivity. Qed.
Lemma cellof_range e s b x : 0 <= s -> 0 <= b -> e = s + b -> 0 <= cellof e s x < 2 ^ b.
Proof.
  intros Hs Hb ->. unfold cellof. pose proof (Z.pow_pos_nonneg 2 s ltac:(lia) Hs). pose proof (Z.pow_pos_nonneg 2 b ltac:(lia) Hb).
  assert (0 < 2 ^ (s + b)) by (apply Z.pow_pos_nonneg; lia). pose proof (Z.mod_pos_bound x (2 ^ (s + b)) ltac:(lia)) as M.
  split; [apply Z.div_pos; lia|]. apply Z.div_lt_upper_bound; [lia|]. rewrite <- Z.pow_add_r by lia. lia.
Qed.

Lemma row_major_range w l : 0 < w -> Forall (fun x => 0 <= x < w) l -> 0 <= row_major w l < w ^ Z.of_nat (length l).
Proof.
  intros Hw. induction 1 as [|x l Hx F IH]; [cbn; lia|]. cbn [row_major length]. rewrite Nat2Z.inj_succ, Z.pow_succ_r by lia.
  set (p := w ^ Z.of_nat (length l)) in *. assert (0 < p) by (apply Z.pow_pos_nonneg; lia). clearbody p. nia.
Qed.
Lemma row_major_snoc w l x : row_major w (l ++ [x]) = row_major w l * w + x.
Proof.
  induction l as [|y l IH]; [cbn; lia|]. cbn [app row_major]. rewrite IH, app_length. cbn [length].
  rewrite Nat.add_1_r, Nat2Z.inj_succ, Z.pow_succ_r by lia. ring.
Qed.

Section Codec.
Variables (T C : list Z) (i : nat) (s b : Z).
Hypothesis Hs : 0 <= s.
Hypothesis Hb : 0 < b.
Hypothesis He : ebit T C i = s + b.
Hypothesis H30 : ebit T C i <= 31.

Lemma encode_loop_ok c : forall pre, Forall (fun x => 0 <= x < 2 ^ b) pre -> b * Z.of_nat (length pre + length c) <= 31 ->
  encode_loop T C i s b (row_major (2 ^ b) pre) c = Some (row_major (2 ^ b) (pre ++ map (cellof (s + b) s) c)).
Proof.
  assert (Hp : 0 < 2 ^ b) by (apply Z.pow_pos_nonneg; lia).
  induction c as [|x r IH]; intros pre F L; cbn [encode_loop map]; [rewrite app_nil_r; reflexivity|].
  pose proof (row_major_range (2 ^ b) pre Hp F) as R. cbn [length] in L.
  rewrite shl_int_ok; [|nia|lia|].
  2: { rewrite <- Z.pow_mul_r in R by lia. assert (2 ^ (b * Z.of_nat (length pre)) * 2 ^ b <= 2 ^ 31).
       { rewrite <- Z.pow_add_r by lia. apply Z.pow_le_mono_r; [lia|]. nia. }
       nia. }
  rewrite lane_eq by lia. pose proof (cellof_range (ebit T C i) s b x Hs ltac:(lia) He) as Q.
  rewrite <- Z.shiftl_mul_pow2 by lia. rewrite lor_add by lia. rewrite <- row_major_snoc. rewrite IH.
  - rewrite <- app_assoc. rewrite <- He. reflexivity.
  - apply Forall_app. split; [exact F|]. constructor; [exact Q|constructor].
  - rewrite app_length. cbn [length]. nia.
Qed.
Lemma encode_ok c : c <> [] -> b * Z.of_nat (length c) <= 31 -> encode T C i s b c = Some (row_major (2 ^ b) (map (cellof (s + b) s) c)).
Proof.
  intros Hc L. destruct c as [|x r]; [contradiction|]. cbn [encode map]. rewrite lane_eq by lia. rewrite He.
  pose proof (encode_loop_ok r [cellof (s + b) s x]) as E. cbn [row_major length Z.of_nat] in E. rewrite Z.pow_0_r, Z.mul_1_r, Z.add_0_r in E. rewrite E.
  - reflexivity.
  - constructor; [|constructor]. apply cellof_range; lia.
  - cbn [length] in L. exact L.
Qed.

Lemma decode_ok l : forall ret, Forall (fun x => 0 <= x < 2 ^ b) l ->
  decode s b (length l) (row_major (2 ^ b) l) ret = Some (map (fun x => x * 2 ^ s) l ++ ret).
Proof.
  assert (Hp : 0 < 2 ^ b) by (apply Z.pow_pos_nonneg; lia).
  induction l as [|x l IH] using rev_ind; intros ret F; [reflexivity|].
  apply Forall_app in F. destruct F as [F Fx]. inversion Fx as [|? ? Hx _]; subst. rewrite app_length. cbn [length]. rewrite Nat.add_1_r. cbn [decode].
  rewrite row_major_snoc, land_mask by lia. rewrite Z.add_comm, Z_mod_plus_full, Z.mod_small by lia.
  rewrite shl_int_ok; [|lia|lia|].
  2: { assert (2 ^ b * 2 ^ s <= 2 ^ 31) by (rewrite <- Z.pow_add_r by lia; apply Z.pow_le_mono_r; lia).
       assert (0 < 2 ^ s) by (apply Z.pow_pos_nonneg; lia). nia. }
  rewrite Z.shiftr_div_pow2 by lia. rewrite Z.div_add by lia. rewrite Z.div_small by lia. rewrite Z.add_0_l. rewrite IH by exact F.
  rewrite map_app, <- app_assoc. reflexivity.
Qed.

(** every offset below 2^(b*dim) is the offset of some digits *)
Fixpoint digits (n : nat) (off : Z) : list Z := match n with O => [] | S m => digits m (off / 2 ^ b) ++ [off mod 2 ^ b] end.
Lemma digits_ok n : forall off, 0 <= off < 2 ^ (b * Z.of_nat n) ->
  length (digits n off) = n /\ Forall (fun x => 0 <= x < 2 ^ b) (digits n off) /\ row_major (2 ^ b) (digits n off) = off.
Proof.
  assert (Hp : 0 < 2 ^ b) by (apply Z.pow_pos_nonneg; lia).
  induction n as [|n IH]; intros off Ho; cbn [digits].
  - rewrite Z.mul_0_r in Ho. cbn in *. repeat split; [constructor|lia].
  - destruct (IH (off / 2 ^ b)) as (L & F & R).
    { split; [apply Z.div_pos; lia|]. apply Z.div_lt_upper_bound; [lia|]. rewrite <- Z.pow_add_r by nia. replace (b + b * Z.of_nat n) with (b * Z.of_nat (S n)) by lia. lia. }
    rewrite app_length, L. cbn [length]. split; [lia|]. split.
    + apply Forall_app. split; [exact F|]. constructor; [apply Z.mod_pos_bound; lia|constructor].
    + rewrite row_major_snoc, R. pose proof (Z.div_mod off (2 ^ b) ltac:(lia)). lia.
Qed.

Lemma cellof_mul x : 0 <= x < 2 ^ b -> cellof (s + b) s (x * 2 ^ s) = x.
Proof.
  intro Hx. unfold cellof. assert (0 < 2 ^ s) by (apply Z.pow_pos_nonneg; lia). rewrite Z.mod_small.
  - apply Z.div_mul. lia.
  - rewrite Z.pow_add_r by lia. nia.
Qed.

Lemma codec_round_off dim off : (0 < dim)%nat -> b * Z.of_nat dim <= 31 -> 0 <= off < 2 ^ (b * Z.of_nat dim) ->
  exists c, decode s b dim off [] = Some c /\ length c = dim /\ encode T C i s b c = Some off /\ Forall (fun y => exists k, y = k * 2 ^ s /\ 0 <= y < 2 ^ ebit T C i) c.
Proof.
  intros Hd L Ho. destruct (digits_ok dim off Ho) as (Ld & F & R). exists (map (fun x => x * 2 ^ s) (digits dim off)).
  assert (E : decode s b dim off [] = Some (map (fun x => x * 2 ^ s) (digits dim off))).
  { pose proof (decode_ok (digits dim off) [] F) as D. rewrite Ld, R, app_nil_r in D. exact D. }
  split; [exact E|]. split; [rewrite map_length; exact Ld|]. split.
  - rewrite encode_ok; [|intro N; apply map_eq_nil in N; rewrite N in Ld; cbn in Ld; lia|rewrite map_length, Ld; exact L].
    rewrite map_map. transitivity (Some (row_major (2 ^ b) (digits dim off))); [|congruence]. do 2 f_equal. rewrite <- map_id. apply map_ext_in. intros x Hx. rewrite Forall_forall in F. apply cellof_mul. auto.
  - apply Forall_map. revert F. apply Forall_impl. intros x Hx. exists x. split; [reflexivity|]. rewrite He, Z.pow_add_r by lia.
    assert (0 < 2 ^ s) by (apply Z.pow_pos_nonneg; lia). nia.
Qed.

(** the cell origin, relative to the block *)
Lemma cell_floor x : floor_to (2 ^ s) (x mod 2 ^ (s + b)) (cellof (s + b) s x * 2 ^ s).
Proof.
  assert (0 < 2 ^ s) by (apply Z.pow_pos_nonneg; lia). split; [eexists; reflexivity|]. unfold cellof.
  pose proof (Z.div_mod (x mod 2 ^ (s + b)) (2 ^ s) ltac:(lia)). pose proof (Z.mod_pos_bound (x mod 2 ^ (s + b)) (2 ^ s) ltac:(lia)). lia.
Qed.
Lemma codec_round_coord c : c <> [] -> b * Z.of_nat (length c) <= 31 ->
  exists off o, encode T C i s b c = Some off /\ 0 <= off < 2 ^ (b * Z.of_nat (length c)) /\ decode s b (length c) off [] = Some o /\
    off = row_major (2 ^ b) (map (fun y => y / 2 ^ s) o) /\
    Forall2 (fun x y => floor_to (2 ^ s) (x mod 2 ^ ebit T C i) y) c o.
Proof.
  intros Hc L. assert (Hp : 0 < 2 ^ b) by (apply Z.pow_pos_nonneg; lia). assert (Hps : 0 < 2 ^ s) by (apply Z.pow_pos_nonneg; lia).
  assert (F : Forall (fun x => 0 <= x < 2 ^ b) (map (cellof (s + b) s) c)).
  { apply Forall_map. apply Forall_forall. intros x _. apply cellof_range; lia. }
  exists (row_major (2 ^ b) (map (cellof (s + b) s) c)), (map (fun x => cellof (s + b) s x * 2 ^ s) c).
  split; [apply encode_ok; assumption|]. split.
  { pose proof (row_major_range (2 ^ b) _ Hp F) as R. rewrite map_length, <- Z.pow_mul_r in R by lia. exact R. }
  split; [|split].
  - pose proof (decode_ok _ [] F) as D. rewrite map_length in D. rewrite D, app_nil_r, map_map. reflexivity.
  - f_equal. rewrite map_map. apply map_ext. intro x. symmetry. apply Z.div_mul. lia.
  - rewrite He. clear - Hs Hb. induction c as [|x c IH].
    + constructor.
    + cbn [map]. constructor; [apply cell_floor|exact IH].
Qed.
Lemma encode_eq c c' : c <> [] -> length c = length c' -> b * Z.of_nat (length c) <= 31 ->
  (encode T C i s b c = encode T C i s b c' <-> Forall2 (fun x y => cellof (s + b) s x = cellof (s + b) s y) c c').
Proof.
  intros Hc Hl L. assert (Hc' : c' <> []) by (intros ->; destruct c; [contradiction|discriminate]).
  rewrite !encode_ok by (assumption || (rewrite <- Hl; assumption)).
  assert (Hp : 0 < 2 ^ b) by (apply Z.pow_pos_nonneg; lia).
  assert (F : forall c, Forall (fun x => 0 <= x < 2 ^ b) (map (cellof (s + b) s) c)).
  { intro l. apply Forall_map. apply Forall_forall. intros x _. apply cellof_range; lia. }
  split.
  - intro E. injection E as E.
    assert (D : decode s b (length c) (row_major (2 ^ b) (map (cellof (s + b) s) c)) [] = decode s b (length c') (row_major (2 ^ b) (map (cellof (s + b) s) c')) []) by (rewrite E, Hl; reflexivity).
    pose proof (decode_ok _ [] (F c)) as D1. pose proof (decode_ok _ [] (F c')) as D2. rewrite map_length in D1, D2. rewrite D1, D2 in D. injection D as D.
    rewrite !app_nil_r, !map_map in D. assert (Hps : 0 < 2 ^ s) by (apply Z.pow_pos_nonneg; lia). clear - D Hl Hps.
    revert c' Hl D. induction c as [|x c IH]; intros [|y c'] Hl D; try discriminate; [constructor|]. cbn in D. injection D as D1 D2. constructor; [|apply IH; [cbn in Hl; lia|exact D2]].
    apply Z.mul_reg_r in D1; [exact D1|lia].
  - intro G. f_equal. f_equal. clear - G. induction G; cbn; congruence.
Qed.
End Codec.

(** level arithmetic *)
Section Levels.
Variables (T C : list Z).
Hypothesis K : cfg_ok T C.
Fixpoint sumc (i : nat) : Z := match i with O => 0 | S j => sumc j + scaling_bits C j end.
Lemma sbit_sum i : (i < length T)%nat -> sbit T C i = sumc i.
Proof.
  unfold sbit, ebit. induction i as [|i IH]; intro H; cbn [accum_hierarchy_bits sumc]; [unfold hierarchy_bits; lia|].
  unfold hierarchy_bits. specialize (IH ltac:(lia)). lia.
Qed.
Lemma sumc_nonneg i : (i <= length T)%nat -> 0 <= sumc i.
Proof. destruct K as [_ K']. induction i as [|i IH]; intro H; cbn [sumc]; [lia|]. specialize (K' i ltac:(lia)). specialize (IH ltac:(lia)). lia. Qed.
Lemma tile_split i : (i < length T)%nat -> 0 <= sbit T C i /\ 0 <= tile_bits T i /\ ebit T C i = sbit T C i + tile_bits T i.
Proof.
  intro H. rewrite (sbit_sum i H). pose proof (sumc_nonneg i ltac:(lia)). destruct K as [_ K']. specialize (K' i H). unfold sbit in *.
  pose proof (sbit_sum i H) as E. unfold sbit in E. lia.
Qed.
Lemma end_nonneg i : (i < length T)%nat -> 0 <= end_prev T C i.
Proof. destruct i as [|i]; intro H; cbn [end_prev]; [lia|]. pose proof (tile_split i ltac:(lia)). lia. Qed.
Lemma hier_split i : ebit T C i = end_prev T C i + hierarchy_bits T C i.
Proof. unfold ebit, end_prev. destruct i; cbn [accum_hierarchy_bits]; unfold ebit; lia. Qed.
Lemma tile_pos i : (i < length T)%nat -> 0 < tile_bits T i.
Proof.
  intro H. destruct K as [_ K']. pose proof (K' i H) as [? Hh]. destruct i as [|i]; unfold hierarchy_bits in Hh; [lia|].
  pose proof (K' i ltac:(lia)) as [? _]. lia.
Qed.
End Levels.

Lemma key_floor T C i c : 0 <= ebit T C i -> Forall2 (fun x k => floor_to (2 ^ ebit T C i) x k) c (coord_to_key T C i c).
Proof.
  intro H. unfold coord_to_key, origin_mask, cell_mask. assert (0 < 2 ^ ebit T C i) by (apply Z.pow_pos_nonneg; lia).
  induction c as [|x c IH].
  { constructor. }
  cbn [map]. constructor; [|exact IH]. rewrite land_origin by lia.
  pose proof (Z.div_mod x (2 ^ ebit T C i) ltac:(lia)). pose proof (Z.mod_pos_bound x (2 ^ ebit T C i) ltac:(lia)).
  split; [exists (x / 2 ^ ebit T C i); lia|lia].
Qed.
Lemma key_val T C i x : 0 <= ebit T C i -> Z.land x (origin_mask T C i) = x - x mod 2 ^ ebit T C i.
Proof. intro H. unfold origin_mask, cell_mask. apply land_origin. exact H. Qed.

Lemma div_split x p b : 0 <= p -> 0 <= b -> x / 2 ^ p = x / 2 ^ (p + b) * 2 ^ b + cellof (p + b) p x.
Proof.
  intros Hp Hb. unfold cellof. assert (0 < 2 ^ p) by (apply Z.pow_pos_nonneg; lia). assert (0 < 2 ^ b) by (apply Z.pow_pos_nonneg; lia).
  assert (E : 2 ^ (p + b) = 2 ^ b * 2 ^ p) by (rewrite Z.pow_add_r by lia; ring).
  pose proof (Z.div_mod x (2 ^ (p + b)) ltac:(nia)) as D. rewrite D at 1. rewrite E at 1.
  replace (2 ^ b * 2 ^ p * (x / 2 ^ (p + b)) + x mod 2 ^ (p + b)) with (x mod 2 ^ (p + b) + (x / 2 ^ (p + b) * 2 ^ b) * 2 ^ p) by ring.
  rewrite Z.div_add by lia. ring.
Qed.
Lemma floor_div g x y : 0 < g -> (x - x mod g = y - y mod g <-> x / g = y / g).
Proof.
  intro Hg. pose proof (Z.div_mod x g ltac:(lia)). pose proof (Z.div_mod y g ltac:(lia)). split; intro E; [|rewrite E in *; lia].
  apply (Z.mul_reg_l _ _ g); lia.
Qed.
Lemma comp_split p b x y : 0 <= p -> 0 <= b ->
  ((x - x mod 2 ^ (p + b) = y - y mod 2 ^ (p + b) /\ cellof (p + b) p x = cellof (p + b) p y) <-> x - x mod 2 ^ p = y - y mod 2 ^ p).
Proof.
  intros Hp Hb. assert (0 < 2 ^ p) by (apply Z.pow_pos_nonneg; lia). assert (0 < 2 ^ b) by (apply Z.pow_pos_nonneg; lia).
  assert (0 < 2 ^ (p + b)) by (apply Z.pow_pos_nonneg; lia).
  rewrite !floor_div by lia. pose proof (div_split x p b Hp Hb) as Dx. pose proof (div_split y p b Hp Hb) as Dy.
  pose proof (cellof_range (p + b) p b x Hp Hb eq_refl). pose proof (cellof_range (p + b) p b y Hp Hb eq_refl).
  split; [intros [E1 E2]; rewrite Dx, Dy, E1, E2; reflexivity|]. intro E. rewrite Dx, Dy in E.
  assert (x / 2 ^ (p + b) = y / 2 ^ (p + b)) by nia. split; [assumption|]. nia.
Qed.
Lemma keys_eq T C i c c' : 0 <= ebit T C i ->
  (coord_to_key T C i c = coord_to_key T C i c' <-> Forall2 (fun x y => x - x mod 2 ^ ebit T C i = y - y mod 2 ^ ebit T C i) c c').
Proof.
  intro H. unfold coord_to_key. split.
  - revert c'. induction c as [|x c IH]; intros [|y c'] E; try discriminate; [constructor|]. cbn [map] in E. injection E as E1 E2. rewrite !key_val in E1 by exact H. constructor; auto.
  - induction 1 as [|x y c c' E F IH]; [reflexivity|]. cbn [map]. rewrite !key_val by exact H. congruence.
Qed.
Lemma F2_conj {A B} (P Q R : A -> B -> Prop) l l' : (forall x y, (P x y /\ Q x y) <-> R x y) -> ((Forall2 P l l' /\ Forall2 Q l l') <-> Forall2 R l l').
Proof.
  intro E. split.
  - intros [F G]. induction F; inversion G; subst; constructor; [apply E; auto|auto].
  - induction 1 as [|x y l l' H F [IH1 IH2]]; [split; constructor|]. apply E in H. split; constructor; tauto.
Qed.

Definition small (T C : list Z) (dim i : nat) (b : Z) : Prop := ebit T C i <= 30 /\ b * Z.of_nat dim <= 31.

Lemma tile_enc_dec T C dim i off : cfg_ok T C -> (i < length T)%nat -> (0 < dim)%nat -> small T C dim i (tile_bits T i) ->
  0 <= off < 2 ^ (tile_bits T i * Z.of_nat dim) ->
  exists c, tile_offset_to_coord T C dim i off = Some c /\ length c = dim /\ coord_to_tile_offset T C i c = Some off /\
    Forall (fun y => exists k, y = k * 2 ^ sbit T C i /\ 0 <= y < 2 ^ ebit T C i) c.
Proof.
  intros K Hi Hd [S1 S2] Ho. destruct (tile_split T C K i Hi) as (A1 & A2 & A3).
  apply (codec_round_off T C i (sbit T C i) (tile_bits T i)); try assumption; [exact (tile_pos T C K i Hi)|lia].
Qed.
Lemma tile_dec_enc T C i c : cfg_ok T C -> (i < length T)%nat -> c <> [] -> small T C (length c) i (tile_bits T i) ->
  exists off o, coord_to_tile_offset T C i c = Some off /\ 0 <= off < 2 ^ (tile_bits T i * Z.of_nat (length c)) /\
    tile_offset_to_coord T C (length c) i off = Some o /\ off = row_major (2 ^ tile_bits T i) (map (fun y => y / 2 ^ sbit T C i) o) /\
    Forall2 (fun x y => floor_to (2 ^ sbit T C i) (x mod 2 ^ ebit T C i) y) c o.
Proof.
  intros K Hi Hc [S1 S2]. destruct (tile_split T C K i Hi) as (A1 & A2 & A3).
  apply (codec_round_coord T C i (sbit T C i) (tile_bits T i)); try assumption; [exact (tile_pos T C K i Hi)|lia].
Qed.
Lemma hier_enc_dec T C dim i off : cfg_ok T C -> (i < length T)%nat -> (0 < dim)%nat -> small T C dim i (hierarchy_bits T C i) ->
  0 <= off < 2 ^ (hierarchy_bits T C i * Z.of_nat dim) ->
  exists c, hierarchy_offset_to_coord T C dim i off = Some c /\ length c = dim /\ coord_to_hierarchy_offset T C i c = Some off /\
    Forall (fun y => exists k, y = k * 2 ^ end_prev T C i /\ 0 <= y < 2 ^ ebit T C i) c.
Proof.
  intros K Hi Hd [S1 S2] Ho. pose proof (end_nonneg T C K i Hi). pose proof (hier_split T C i). pose proof (proj2 K i Hi) as [_ Hh].
  apply (codec_round_off T C i (end_prev T C i) (hierarchy_bits T C i)); try assumption. lia.
Qed.
Lemma hier_dec_enc T C i c : cfg_ok T C -> (i < length T)%nat -> c <> [] -> small T C (length c) i (hierarchy_bits T C i) ->
  exists off o, coord_to_hierarchy_offset T C i c = Some off /\ 0 <= off < 2 ^ (hierarchy_bits T C i * Z.of_nat (length c)) /\
    hierarchy_offset_to_coord T C (length c) i off = Some o /\ off = row_major (2 ^ hierarchy_bits T C i) (map (fun y => y / 2 ^ end_prev T C i) o) /\
    Forall2 (fun x y => floor_to (2 ^ end_prev T C i) (x mod 2 ^ ebit T C i) y) c o.
Proof.
  intros K Hi Hc [S1 S2]. pose proof (end_nonneg T C K i Hi). pose proof (hier_split T C i). pose proof (proj2 K i Hi) as [_ Hh].
  apply (codec_round_coord T C i (end_prev T C i) (hierarchy_bits T C i)); try assumption. lia.
Qed.
Lemma ebit_nonneg T C i : cfg_ok T C -> (i < length T)%nat -> 0 <= ebit T C i.
Proof. intros K Hi. destruct (tile_split T C K i Hi) as (A1 & A2 & A3). lia. Qed.
Lemma key_floor' T C i c : cfg_ok T C -> (i < length T)%nat -> Forall2 (fun x k => floor_to (2 ^ ebit T C i) x k) c (coord_to_key T C i c).
Proof. intros K Hi. apply key_floor. apply ebit_nonneg; assumption. Qed.
Lemma coord_split T C i c c' : cfg_ok T C -> (i < length T)%nat -> c <> [] -> length c' = length c -> small T C (length c) i (tile_bits T i) ->
  coord_to_key T C i c = coord_to_key T C i c' -> coord_to_tile_offset T C i c = coord_to_tile_offset T C i c' ->
  Forall2 (fun x y => x mod 2 ^ sbit T C i = y mod 2 ^ sbit T C i) c c' -> c = c'.
Proof.
  intros K Hi Hc Hl [S1 S2] E1 E2 E3. destruct (tile_split T C K i Hi) as (A1 & A2 & A3).
  apply keys_eq in E1; [|lia]. unfold coord_to_tile_offset in E2.
  apply (encode_eq T C i (sbit T C i) (tile_bits T i)) in E2; try assumption; [|exact (tile_pos T C K i Hi)|lia|lia]. rewrite A3 in E1.
  assert (F : Forall2 (fun x y => x - x mod 2 ^ sbit T C i = y - y mod 2 ^ sbit T C i) c c').
  { eapply (F2_conj _ _ _ c c' (fun x y => comp_split (sbit T C i) (tile_bits T i) x y A1 A2)). split; assumption. }
  clear - F E3. induction F; inversion E3; subst; [reflexivity|]. f_equal; [lia|auto].
Qed.
Lemma child_key T C i c c' : cfg_ok T C -> (S i < length T)%nat -> c <> [] -> length c' = length c -> small T C (length c) (S i) (hierarchy_bits T C (S i)) ->
  (coord_to_key T C i c = coord_to_key T C i c' <->
   coord_to_key T C (S i) c = coord_to_key T C (S i) c' /\ coord_to_hierarchy_offset T C (S i) c = coord_to_hierarchy_offset T C (S i) c').
Proof.
  intros K Hi Hc Hl [S1 S2]. pose proof (end_nonneg T C K (S i) Hi) as He. pose proof (hier_split T C (S i)) as Hs. pose proof (proj2 K (S i) Hi) as [_ Hh].
  pose proof (ebit_nonneg T C i K ltac:(lia)). pose proof (ebit_nonneg T C (S i) K Hi).
  rewrite !keys_eq by assumption. unfold coord_to_hierarchy_offset.
  rewrite (encode_eq T C (S i) (end_prev T C (S i)) (hierarchy_bits T C (S i))) by (assumption || lia).
  rewrite Hs. symmetry. apply F2_conj. intros x y. apply (comp_split (end_prev T C (S i))); [exact He|lia].
Qed.
Lemma leaf_key T C c c' : cfg_ok T C -> (0 < length T)%nat -> c <> [] -> length c' = length c -> small T C (length c) 0 (hierarchy_bits T C 0) ->
  (c = c' <-> coord_to_key T C 0 c = coord_to_key T C 0 c' /\ coord_to_hierarchy_offset T C 0 c = coord_to_hierarchy_offset T C 0 c').
Proof.
  intros K Hi Hc Hl [S1 S2]. split; [intros ->; auto|]. pose proof (end_nonneg T C K 0 Hi) as He. pose proof (hier_split T C 0) as Hs. pose proof (proj2 K 0%nat Hi) as [_ Hh].
  pose proof (ebit_nonneg T C 0 K Hi). rewrite !keys_eq by assumption. unfold coord_to_hierarchy_offset.
  rewrite (encode_eq T C 0 (end_prev T C 0) (hierarchy_bits T C 0)) by (assumption || lia).
  rewrite Hs. intros [F G].
  assert (Q : Forall2 (fun x y => x - x mod 2 ^ 0 = y - y mod 2 ^ 0) c c').
  { eapply (F2_conj _ _ _ c c' (fun x y => comp_split 0 (hierarchy_bits T C 0) x y ltac:(lia) ltac:(lia))). split; assumption. }
  clear - Q. induction Q as [|x y c c' E F IH]; [reflexivity|]. rewrite Z.pow_0_r, !Z.mod_1_r in E. f_equal; [lia|exact IH].
Qed.
Lemma key_nest T C i j c : cfg_ok T C -> (i <= j < length T)%nat -> coord_to_key T C j (coord_to_key T C i c) = coord_to_key T C j c.
Proof.
  intros K Hij. pose proof (ebit_nonneg T C i K ltac:(lia)) as Hi. pose proof (ebit_nonneg T C j K ltac:(lia)) as Hj.
  assert (Hle : ebit T C i <= ebit T C j).
  { clear Hi Hj. induction j as [|j IH]; [replace i with 0%nat by lia; lia|]. destruct (Nat.eq_dec i (S j)) as [->|]; [lia|].
    pose proof (hier_split T C (S j)). pose proof (proj2 K (S j) ltac:(lia)) as [_ ?]. cbn [end_prev] in *. specialize (IH ltac:(lia)). lia. }
  unfold coord_to_key. rewrite map_map. apply map_ext. intro x. rewrite !key_val by assumption.
  replace (ebit T C j) with (ebit T C i + (ebit T C j - ebit T C i)) by lia. set (p := ebit T C i) in *. set (b := ebit T C j - p) in *.
  assert (0 < 2 ^ p) by (apply Z.pow_pos_nonneg; lia). assert (0 < 2 ^ b) by (apply Z.pow_pos_nonneg; lia).
  apply (comp_split p b); [lia|lia|]. clear - H.
  pose proof (Z.div_mod x (2 ^ p) ltac:(lia)) as D. replace (x - x mod 2 ^ p) with (x / 2 ^ p * 2 ^ p) by lia. rewrite Z_mod_mult. lia.
Qed.
Lemma sbit_lower T C i : cfg_ok T C -> (i < length T)%nat -> sbit T C i = fold_right Z.add 0 (firstn i C).
Proof.
  intros K Hi. rewrite sbit_sum by assumption. destruct K as [L _].
  assert (G : forall k, (k <= length C)%nat -> sumc C k = fold_right Z.add 0 (firstn k C)).
  { clear. induction k as [|k IH]; intro H; [reflexivity|]. cbn [sumc]. rewrite IH by lia. unfold scaling_bits. clear IH.
    revert C H. induction k as [|k IH]; intros [|a C] H; cbn [length] in H; try lia; [cbn; lia|].
    change (firstn (S (S k)) (a :: C)) with (a :: firstn (S k) C). change (firstn (S k) (a :: C)) with (a :: firstn k C). cbn [fold_right nth].
    rewrite <- IH by lia. lia. }
  apply G. lia.
Qed.
