(** C92: arithmetic, and ranges that behave. *)
From Verif Require Import Prelude ItModel ItSpec.
From Coq Require Import Lia.
Open Scope Z_scope.

Lemma pow_bits t : wide t -> 2 ^ bits t = 2 * 2 ^ (bits t - 1) /\ 2 ^ 31 <= 2 ^ (bits t - 1) <= 2 ^ 63.
Proof. intros [-> | ->]; cbn; lia. Qed.
Lemma conv_id t z : wide t -> lo t <= z <= hi t -> conv t z = z.
Proof.
  intros W H. destruct (pow_bits t W) as [P Q]. unfold conv, lo, hi in *. destruct (sgn t).
  - destruct (Z_lt_le_dec z 0) as [N|N].
    + replace (z mod 2 ^ bits t) with (z + 2 ^ bits t); [destruct (Z.ltb_spec (z + 2 ^ bits t) (2 ^ (bits t - 1))); lia|].
      apply (Z.mod_unique_pos _ _ (-1)); lia.
    + rewrite Z.mod_small by lia. destruct (Z.ltb_spec z (2 ^ (bits t - 1))); lia.
  - apply Z.mod_small. lia.
Qed.
Lemma arith_id t z : wide t -> lo t <= z <= hi t -> arith t z = Some z.
Proof.
  intros W H. unfold arith. destruct (sgn t) eqn:S.
  - replace ((lo t <=? z) && (z <=? hi t))%bool with true; [reflexivity|]. symmetry. apply andb_true_intro. split; apply Z.leb_le; lia.
  - destruct (pow_bits t W). unfold lo, hi in H. rewrite S in H. f_equal. apply Z.mod_small. lia.
Qed.
Lemma arith_range t z y : sgn t = true -> arith t z = Some y -> y = z /\ lo t <= z <= hi t.
Proof.
  intros S. unfold arith. rewrite S. destruct ((lo t <=? z) && (z <=? hi t))%bool eqn:E; [|discriminate]. intros H. injection H as <-.
  apply andb_prop in E as [A B]. apply Z.leb_le in A, B. auto.
Qed.
Lemma wide_diff t : wide t -> wide (diff_t t).
Proof. intros H. exact H. Qed.
Lemma omap_map {A B} (f : A -> option B) (g : A -> B) l : (forall x, In x l -> f x = Some (g x)) -> omap f l = Some (map g l).
Proof. induction l as [|a l IH]; cbn; intros H; [reflexivity|]. rewrite H, IH; auto. Qed.

(** a range whose iterators behave: at i is the iterator after i steps *)
Record good (r : iter * iter) (xs : list value) (at_ : nat -> iter) : Prop := {
  g_start : at_ 0%nat = fst r;
  g_adv : forall i j, (i + j <= length xs)%nat -> adv (at_ i) (Z.of_nat j) = Some (at_ (i + j)%nat);
  g_deref : forall i, (i < length xs)%nat -> deref (at_ i) = Some (nth i xs (VInt 0));
  g_eq : forall i j, (i <= length xs)%nat -> (j <= length xs)%nat -> eq_it (at_ i) (at_ j) = Nat.eqb i j;
  g_dist : forall i j, (i <= j <= length xs)%nat -> dist (at_ i) (at_ j) = Some (Z.of_nat j - Z.of_nat i);
  g_end : forall i, (i <= length xs)%nat -> eq_it (at_ i) (snd r) = Nat.eqb i (length xs);
  g_dist_end : forall i, (i <= length xs)%nat -> dist (at_ i) (snd r) = Some (Z.of_nat (length xs) - Z.of_nat i);
  g_bits : forall i, (i <= length xs)%nat -> dbits (at_ i) = dbits (fst r);
  g_max : Z.of_nat (length xs) <= 2 ^ (dbits (fst r) - 1) - 1;
  g_wide : 32 <= dbits (fst r) <= 64 }.

Lemma skipn_nth {A} (d : A) i l : (i < length l)%nat -> skipn i l = nth i l d :: skipn (S i) l.
Proof. revert l. induction i; intros [|a l] H; cbn in *; try lia; [reflexivity|]. apply IHi. lia. Qed.
Lemma good_completes r xs at_ : good r xs at_ -> completes r xs.
Proof.
  intros G. exists (length xs). rewrite <- (g_start _ _ _ G).
  enough (H : forall k i, (i + k = length xs)%nat -> seq_for k (at_ i) (snd r) = Visits (skipn i xs)) by (apply (H _ 0%nat); lia).
  induction k as [|k IH]; intros i H; cbn [seq_for]; rewrite (g_end _ _ _ G) by lia.
  - replace (Nat.eqb i (length xs)) with true by (symmetry; apply Nat.eqb_eq; lia). rewrite skipn_all2 by lia. reflexivity.
  - replace (Nat.eqb i (length xs)) with false by (symmetry; apply Nat.eqb_neq; lia).
    rewrite (g_deref _ _ _ G) by lia. pose proof (g_adv _ _ _ G i 1 ltac:(lia)) as A. cbn in A. rewrite A.
    rewrite IH by lia. rewrite (skipn_nth (VInt 0) i xs) by lia. do 2 f_equal. f_equal. lia.
Qed.
Lemma nth_seq_map {A} (d : A) l : map (fun i => nth i l d) (seq 0 (length l)) = l.
Proof.
  apply (nth_ext _ _ d d); [now rewrite map_length, seq_length|]. intros i Hi. rewrite map_length, seq_length in Hi.
  rewrite (nth_indep _ d (nth 0 l d)) by (rewrite map_length, seq_length; lia). rewrite (map_nth (fun i => nth i l d)), seq_nth by lia. reflexivity.
Qed.
Lemma good_parallel r xs at_ : good r xs at_ -> par_for (fst r) (snd r) = Some xs.
Proof.
  intros G. unfold par_for. rewrite <- (g_start _ _ _ G), (g_dist_end _ _ _ G) by lia. cbn [obind].
  replace (Z.to_nat (Z.of_nat (length xs) - Z.of_nat 0)) with (length xs) by lia.
  rewrite (omap_map _ (fun i => nth i xs (VInt 0))); [now rewrite nth_seq_map|].
  intros i Hi. apply in_seq in Hi. rewrite (g_adv _ _ _ G 0 i) by lia. cbn. apply (g_deref _ _ _ G). lia.
Qed.

(** integer intervals and arrays *)
Lemma steps_length b s k : length (steps b s k) = k.
Proof. unfold steps. now rewrite map_length, seq_length. Qed.
Lemma steps_nth b s k i : (i < k)%nat -> nth i (steps b s k) (VInt 0) = VInt (b + s * Z.of_nat i).
Proof.
  intros H. unfold steps. rewrite (nth_indep _ (VInt 0) (VInt (b + s * Z.of_nat 0))) by (rewrite map_length, seq_length; lia).
  rewrite (map_nth (fun i => VInt (b + s * Z.of_nat i))), seq_nth by lia. reflexivity.
Qed.
Lemma range2_up t b e : wide t -> lo t <= b <= e -> e <= hi (diff_t t) -> e - b <= hi (diff_t t) ->
  range2 t b e = Some (Index (diff_t t) b (if b <? e then 1 else -1), Index (diff_t t) e (if b <? e then 1 else -1)).
Proof.
  intros W Hb He Hd. set (d := diff_t t) in *. assert (Wd : wide d) by exact W. destruct (pow_bits d Wd) as [P Q].
  assert (L : lo d <= b). { unfold lo, d, diff_t in *. cbn in *. destruct (sgn t); lia. }
  assert (C1 : conv d b = b) by (apply conv_id; [exact Wd|lia]). assert (C2 : conv d e = e) by (apply conv_id; [exact Wd|lia]).
  assert (L0 : lo d < -1 /\ 1 < hi d) by (unfold lo, hi, d, diff_t; cbn; unfold d, diff_t in *; cbn in *; lia).
  unfold range2, range3. fold d. rewrite C1, C2, (arith_id d) by (lia || exact Wd). cbn [obind].
  assert (R : crem d (e - b) (if b <? e then 1 else -1) = Some 0).
  { unfold crem. destruct (b <? e); cbn [Z.eqb]; [rewrite Z.rem_1_r|].
    - now rewrite andb_false_r.
    - replace (e - b =? lo d) with false by (symmetry; apply Z.eqb_neq; lia). rewrite andb_false_r. cbn. f_equal. rewrite Z.rem_opp_r' with (b := 1). apply Z.rem_1_r. }
  rewrite R. cbn [obind]. rewrite Z.sub_0_r, (arith_id d) by (lia || exact Wd). cbn [obind].
  replace (diff_t d) with d by reflexivity. rewrite (conv_id d) by (try exact Wd; destruct (b <? e); lia). reflexivity.
Qed.
Lemma ints_good t b e : wide t -> lo t <= b <= e -> e <= hi (diff_t t) -> e - b <= hi (diff_t t) ->
  exists r at_, range2 t b e = Some r /\ good r (steps b 1 (Z.to_nat (e - b))) at_.
Proof.
  intros W Hb He Hd. rewrite (range2_up t b e W Hb He Hd). set (d := diff_t t) in *. set (s := if b <? e then 1 else -1).
  assert (Wd : wide d) by exact W. destruct (pow_bits d Wd) as [P Q].
  assert (L : lo d <= b). { unfold lo, d, diff_t in *. cbn in *. destruct (sgn t); lia. }
  assert (L0 : lo d < -1 /\ 1 < hi d /\ lo d = - hi d - 1) by (unfold lo, hi, d, diff_t; cbn; unfold d, diff_t in *; cbn in *; lia).
  assert (S1 : s = 1 \/ b = e) by (unfold s; destruct (Z.ltb_spec b e); lia).
  assert (S2 : s = 1 \/ s = -1) by (unfold s; destruct (Z.ltb_spec b e); lia).
  eexists. exists (fun i => Index d (b + Z.of_nat i) s). split; [reflexivity|].
  split; rewrite ?steps_length; cbn [fst snd].
  - f_equal. lia.
  - intros i j H. cbn [adv]. change (diff_t d) with d. rewrite (conv_id d (Z.of_nat j)) by (try exact Wd; lia).
    assert (X : s * Z.of_nat j = Z.of_nat j) by (destruct S1 as [-> |X]; [lia|]; assert (j = 0%nat) by lia; subst; lia).
    rewrite X. rewrite (arith_id d) by (try exact Wd; lia). cbn [obind]. rewrite (arith_id d) by (try exact Wd; lia). cbn. do 2 f_equal. lia.
  - intros i H. cbn. rewrite steps_nth by exact H. do 2 f_equal. lia.
  - intros i j Hi Hj. cbn. destruct (Nat.eqb_spec i j) as [-> |N]; [apply Z.eqb_refl|]. apply Z.eqb_neq. lia.
  - intros i j H. cbn [dist]. change (diff_t d) with d. rewrite !(conv_id d) by (try exact Wd; lia). rewrite (arith_id d) by (try exact Wd; lia). f_equal. lia.
  - intros i H. cbn. destruct (Nat.eqb_spec i (Z.to_nat (e - b))) as [-> |N]; [apply Z.eqb_eq; lia|]. apply Z.eqb_neq. lia.
  - intros i H. cbn [dist]. change (diff_t d) with d. rewrite !(conv_id d) by (try exact Wd; lia). rewrite (arith_id d) by (try exact Wd; lia). f_equal. lia.
  - reflexivity.
  - cbn. unfold hi, d, diff_t in Hd. cbn in Hd. lia.
  - cbn. destruct W as [-> | ->]; lia.
Qed.
Definition refs (p : nat) (i n : Z) : list value := map (fun k => VRef p (i + Z.of_nat k)) (seq 0 (Z.to_nat n)).
Lemma array_good p i n : 0 <= n < 2 ^ 63 -> good (range_ptr p i n) (refs p i n) (fun k => Ptr p (i + Z.of_nat k)).
Proof.
  intros Hn. assert (L : length (refs p i n) = Z.to_nat n) by (unfold refs; now rewrite map_length, seq_length).
  split; rewrite ?L; unfold range_ptr; cbn [fst snd].
  - f_equal. lia.
  - intros a j H. cbn. do 2 f_equal. lia.
  - intros a H. cbn. unfold refs. rewrite (nth_indep _ (VInt 0) (VRef p (i + Z.of_nat 0))) by (rewrite map_length, seq_length; lia).
    rewrite (map_nth (fun k => VRef p (i + Z.of_nat k))), seq_nth by lia. reflexivity.
  - intros a j Ha Hj. cbn. rewrite Nat.eqb_refl. cbn. destruct (Nat.eqb_spec a j) as [-> |N]; [apply Z.eqb_refl|]. apply Z.eqb_neq. lia.
  - intros a j H. cbn. rewrite Nat.eqb_refl. f_equal. lia.
  - intros a H. cbn. rewrite Nat.eqb_refl. cbn. destruct (Nat.eqb_spec a (Z.to_nat n)) as [-> |N]; [apply Z.eqb_eq; lia|]. apply Z.eqb_neq. lia.
  - intros a H. cbn. rewrite Nat.eqb_refl. f_equal. lia.
  - reflexivity.
  - cbn [dbits]. lia.
  - cbn. lia.
Qed.
