(** C92: chunks, strides, descending and out of range bounds. *)
From Verif Require Import Prelude ItModel ItSpec ItProofs ItProofs2.
From Coq Require Import Lia.
Open Scope Z_scope.

(** chunks *)
Fixpoint chop {A} (k c : nat) (l : list A) : list (list A) := match k with O => [] | S j => firstn c l :: chop j c (skipn c l) end.
Lemma chop_length {A} k c (l : list A) : length (chop k c l) = k.
Proof. revert l. induction k; cbn; intros; [reflexivity|]. now rewrite IHk. Qed.
Lemma chop_concat {A} k c (l : list A) : (length l <= k * c)%nat -> concat (chop k c l) = l.
Proof.
  revert l. induction k; cbn; intros l H; [destruct l; [reflexivity|cbn in H; lia]|].
  rewrite IHk by (rewrite skipn_length; lia). apply firstn_skipn.
Qed.
Lemma skipn_skipn' {A} a b (l : list A) : skipn a (skipn b l) = skipn (b + a) l.
Proof. revert l. induction b; intros [|x l]; cbn; try reflexivity; [now rewrite skipn_nil|apply IHb]. Qed.
Lemma chop_nth {A} k c (l : list A) i : (i < k)%nat -> nth i (chop k c l) [] = firstn c (skipn (i * c) l).
Proof.
  revert l i. induction k; intros l i H; [lia|]. destruct i; cbn [chop nth]; [reflexivity|]. rewrite IHk by lia. rewrite skipn_skipn'. do 2 f_equal.
Qed.
Section Chunks.
Variables (r : iter * iter) (xs : list value) (at_ : nat -> iter) (c : nat).
Hypothesis (G : good r xs at_) (Hc : (0 < c)%nat).
Definition chunks : nat := ((length xs + c - 1) / c)%nat.
Lemma chunks_spec i : (i < chunks)%nat <-> (i * c < length xs)%nat.
Proof.
  unfold chunks. pose proof (Nat.div_mod (length xs + c - 1) c ltac:(lia)). pose proof (Nat.mod_upper_bound (length xs + c - 1) c ltac:(lia)).
  set (q := ((length xs + c - 1) / c)%nat) in *. split; intros; nia.
Qed.
Definition cut (i : nat) : nat := Nat.min (i * c) (length xs).
Lemma chunk_deref i : (i < chunks)%nat ->
  deref (Chunk (fst r) (Z.of_nat (length xs)) (Z.of_nat i) (Z.of_nat c)) = Some (VRange (at_ (cut i)) (at_ (cut (S i)))).
Proof.
  intros H. apply chunks_spec in H. cbn [deref]. rewrite <- (g_start _ _ _ G).
  replace (Z.of_nat i * Z.of_nat c) with (Z.of_nat (cut i)) by (unfold cut; lia).
  rewrite (g_adv _ _ _ G 0 (cut i)) by (unfold cut; lia). cbn [obind Nat.add].
  match goal with |- context [adv (at_ 0%nat) ?z] => replace z with (Z.of_nat (cut (S i))) end.
  - rewrite (g_adv _ _ _ G 0 (cut (S i))) by (unfold cut; lia). reflexivity.
  - unfold cut. destruct (Z.ltb_spec (Z.of_nat (length xs)) (Z.of_nat (Nat.min (i * c) (length xs)) + Z.of_nat c)); lia.
Qed.
Lemma chunk_view_value : chunk_view r (Z.of_nat c) =
  Some (Chunk (fst r) (Z.of_nat (length xs)) 0 (Z.of_nat c), Chunk (fst r) (Z.of_nat (length xs)) (Z.of_nat chunks) (Z.of_nat c)).
Proof.
  unfold chunk_view, range_size. rewrite <- (g_start _ _ _ G), (g_dist_end _ _ _ G) by lia. cbn [obind].
  replace (Z.of_nat c =? 0) with false by (symmetry; apply Z.eqb_neq; lia). rewrite Z.sub_0_r. do 3 f_equal.
  rewrite Z.quot_div_nonneg by lia. unfold chunks. rewrite Nat2Z.inj_div. f_equal. lia.
Qed.
Lemma chunk_parallel : par_for (Chunk (fst r) (Z.of_nat (length xs)) 0 (Z.of_nat c)) (Chunk (fst r) (Z.of_nat (length xs)) (Z.of_nat chunks) (Z.of_nat c)) =
  Some (map (fun i => VRange (at_ (cut i)) (at_ (cut (S i)))) (seq 0 chunks)).
Proof.
  unfold par_for. cbn [dist obind]. rewrite Z.sub_0_r, Nat2Z.id. apply omap_map. intros i Hi. apply in_seq in Hi. cbn [adv obind].
  rewrite Z.add_0_l. apply chunk_deref. lia.
Qed.
Lemma chunk_elements i : (i < chunks)%nat -> firstn (cut (S i) - cut i) (skipn (cut i) xs) = nth i (chop chunks c xs) [].
Proof.
  intros H. rewrite chop_nth by exact H. apply chunks_spec in H. unfold cut. rewrite (Nat.min_l (i * c)) by lia.
  destruct (Nat.le_gt_cases (S i * c) (length xs)) as [L|L]; [rewrite Nat.min_l by lia; f_equal; lia|].
  rewrite Nat.min_r by lia. rewrite !firstn_all2; [reflexivity|rewrite skipn_length; lia|rewrite skipn_length; lia].
Qed.
Lemma chunk_visits : exists vs parts cr, chunk_view r (Z.of_nat c) = Some cr /\ par_for (fst cr) (snd cr) = Some vs /\ concat parts = xs /\
  Forall2 (fun v p => exists b e, v = VRange b e /\ completes (b, e) p /\ par_for b e = Some p /\ (0 < length p <= c)%nat) vs parts /\
  (forall i, (S i < length parts)%nat -> length (nth i parts []) = c).
Proof.
  exists (map (fun i => VRange (at_ (cut i)) (at_ (cut (S i)))) (seq 0 chunks)), (chop chunks c xs).
  eexists. split; [apply chunk_view_value|]. split; [apply chunk_parallel|].
  assert (Q : (length xs <= chunks * c)%nat) by (apply Nat.nlt_ge; intros L; apply chunks_spec in L; lia).
  split; [apply chop_concat; exact Q|]. split.
  - replace (chop chunks c xs) with (map (fun i => nth i (chop chunks c xs) []) (seq 0 chunks)).
    2:{ pose proof (nth_seq_map [] (chop chunks c xs)) as N. rewrite chop_length in N. exact N. }
    assert (F : forall i, In i (seq 0 chunks) -> exists b e, VRange (at_ (cut i)) (at_ (cut (S i))) = VRange b e /\ completes (b, e) (nth i (chop chunks c xs) []) /\
      par_for b e = Some (nth i (chop chunks c xs) []) /\ (0 < length (nth i (chop chunks c xs) []) <= c)%nat).
    { intros i Hi. apply in_seq in Hi. assert (Hi' : (i < chunks)%nat) by lia. eexists _, _. split; [reflexivity|]. rewrite <- chunk_elements by exact Hi'.
      apply chunks_spec in Hi'. pose proof (sub_good r xs at_ (cut i) (cut (S i)) G ltac:(unfold cut; lia)) as S.
      split; [exact (good_completes _ _ _ S)|]. split; [exact (good_parallel _ _ _ S)|]. rewrite firstn_length, skipn_length. unfold cut. lia. }
    revert F. generalize (seq 0 chunks). intros l F. induction l; cbn; constructor; [apply F; now left|]. apply IHl. intros i Hi. apply F. now right.
  - intros i Hi. rewrite chop_length in Hi. rewrite chop_nth by lia. rewrite firstn_length, skipn_length.
    assert (S i * c < length xs)%nat by (apply chunks_spec; exact Hi). lia.
Qed.
End Chunks.

(** loops over an index iterator with a stride *)
Definition ok (t : ity) (z : Z) : Prop := lo t <= z <= hi t.
Lemma convex t a b s k i : ok t a -> ok t b -> b = a + s * Z.of_nat k -> (i <= k)%nat -> ok t (a + s * Z.of_nat i).
Proof. unfold ok. intros Ha Hb -> Hi. destruct (Z.le_gt_cases 0 s).
  - assert (0 <= s * Z.of_nat i <= s * Z.of_nat k) by (split; [apply Z.mul_nonneg_nonneg|apply Z.mul_le_mono_nonneg_l]; lia). lia.
  - assert (s * Z.of_nat k <= s * Z.of_nat i <= 0) by (split; [apply Z.mul_le_mono_nonpos_l|apply Z.mul_nonpos_nonneg]; lia). lia.
Qed.
Lemma stride_for t b s k : wide t -> s <> 0 -> ok (diff_t t) s -> ok t b -> ok t (b + s * Z.of_nat k) ->
  seq_for k (Index t b s) (Index t (b + s * Z.of_nat k) s) = Visits (steps b s k).
Proof.
  intros W S0 Hs Hb He. unfold steps.
  enough (H : forall m i, (i + m = k)%nat -> seq_for m (Index t (b + s * Z.of_nat i) s) (Index t (b + s * Z.of_nat k) s) =
    Visits (map (fun i => VInt (b + s * Z.of_nat i)) (seq i m))).
  { specialize (H k 0%nat eq_refl). rewrite Z.mul_0_r, Z.add_0_r in H. exact H. }
  destruct (pow_bits t W) as [P Q].
  induction m as [|m IH]; intros i Hi; cbn [seq_for eq_it].
  - replace i with k by lia. rewrite Z.eqb_refl. reflexivity.
  - replace (b + s * Z.of_nat i =? b + s * Z.of_nat k) with false by (symmetry; apply Z.eqb_neq; nia).
    cbn [deref adv]. rewrite (conv_id (diff_t t) 1) by (try exact W; unfold lo, hi, diff_t; cbn; lia). rewrite Z.mul_1_r.
    rewrite (arith_id (diff_t t)) by assumption. cbn [obind].
    rewrite (arith_id t); [|exact W|]. 2:{ replace (b + s * Z.of_nat i + s) with (b + s * Z.of_nat (S i)) by lia. apply (convex t b _ s k (S i) Hb He eq_refl). lia. }
    cbn [obind]. replace (b + s * Z.of_nat i + s) with (b + s * Z.of_nat (S i)) by lia. rewrite IH by lia. reflexivity.
Qed.
Lemma range3_up t b e inc : wide t -> ok t b -> ok t e -> b <= e -> e - b <= hi t -> 0 < inc -> ok (diff_t t) inc ->
  range3 t b e inc = Some (Index t b inc, Index t (b + inc * ((e - b) / inc)) inc).
Proof.
  intros W Hb He L D I Hi. unfold ok in *. destruct (pow_bits t W) as [P Q]. unfold range3.
  assert (L0 : lo t <= 0) by (unfold lo; destruct (sgn t); lia).
  rewrite (arith_id t) by (try exact W; lia). cbn [obind]. unfold crem.
  replace (inc =? 0) with false by (symmetry; apply Z.eqb_neq; lia). replace (inc =? -1) with false by (symmetry; apply Z.eqb_neq; lia).
  rewrite andb_false_r. cbn [obind]. rewrite Z.rem_mod_nonneg by lia. pose proof (Z.div_mod (e - b) inc ltac:(lia)). pose proof (Z.mod_pos_bound (e - b) inc I).
  assert (0 <= inc * ((e - b) / inc)) by (apply Z.mul_nonneg_nonneg; [lia|apply Z.div_pos; lia]).
  rewrite (arith_id t) by (try exact W; lia). cbn [obind]. rewrite (conv_id (diff_t t)) by (try exact W; lia).
  do 3 f_equal. lia.
Qed.
Lemma range3_down t b e inc : wide t -> sgn t = true -> ok t b -> ok t e -> e <= b -> b - e <= hi t -> inc < 0 -> ok t inc ->
  range3 t b e inc = Some (Index t b inc, Index t (b + inc * ((b - e) / - inc)) inc).
Proof.
  intros W S Hb He L D I Hi. unfold ok in *. destruct (pow_bits t W) as [P Q]. unfold range3.
  assert (L0 : lo t = - hi t - 1) by (unfold lo, hi; rewrite S; lia).
  assert (E : diff_t t = t) by (unfold diff_t; destruct t; cbn in *; now rewrite S).
  rewrite (arith_id t) by (try exact W; lia). cbn [obind]. unfold crem.
  replace (inc =? 0) with false by (symmetry; apply Z.eqb_neq; lia). replace (e - b =? lo t) with false by (symmetry; apply Z.eqb_neq; lia).
  rewrite andb_false_r. cbn [andb obind]. replace (e - b) with (- (b - e)) by lia. replace inc with (- (- inc)) at 1 by lia.
  rewrite Z.rem_opp_opp, Z.rem_mod_nonneg by lia. pose proof (Z.div_mod (b - e) (- inc) ltac:(lia)). pose proof (Z.mod_pos_bound (b - e) (- inc) ltac:(lia)).
  assert (0 <= - inc * ((b - e) / - inc)) by (apply Z.mul_nonneg_nonneg; [lia|apply Z.div_pos; lia]).
  rewrite (arith_id t) by (try exact W; lia). cbn [obind]. rewrite E, (conv_id t) by (try exact W; lia). do 3 f_equal. lia.
Qed.
Lemma stride_parallel t b s k n : wide t -> ok (diff_t t) b -> lo t <= b -> 0 < s -> (0 < k)%nat -> Z.of_nat n = s * Z.of_nat k -> ok (diff_t t) (b + s * Z.of_nat n) ->
  s * Z.of_nat n <= hi (diff_t t) ->
  par_for (Index t b s) (Index t (b + s * Z.of_nat k) s) = Some (steps b s n).
Proof.
  intros W Hb Hlo Hs Hk Hn He Hb'. unfold ok in *. destruct (pow_bits t W) as [P Q]. set (d := diff_t t) in *. assert (Wd : wide d) by exact W.
  assert (Ld : lo d = - hi d - 1) by (unfold lo, hi, d, diff_t; cbn; lia). assert (Hd : hi d <= hi t) by (unfold hi, d, diff_t; cbn; destruct (sgn t); lia).
  assert (N1 : Z.of_nat k <= Z.of_nat n) by nia. assert (N2 : s * Z.of_nat k <= s * Z.of_nat n) by nia.
  unfold par_for. cbn [dist]. fold d. rewrite !(conv_id d) by (try exact Wd; nia). replace (b + s * Z.of_nat k - b) with (Z.of_nat n) by lia.
  rewrite (arith_id d) by (try exact Wd; nia). cbn [obind]. rewrite Nat2Z.id. unfold steps. apply omap_map. intros i Hi. apply in_seq in Hi.
  cbn [adv]. fold d. assert (s * Z.of_nat i <= s * Z.of_nat n) by nia. rewrite (conv_id d) by (try exact Wd; nia). rewrite (arith_id d) by (try exact Wd; nia). cbn [obind].
  rewrite (arith_id t) by (try exact W; nia). reflexivity.
Qed.
(** an index iterator that never reaches its end *)
Lemma stuck t s e (inv : Z -> Prop) : (forall z, inv z -> z <> e) -> (forall z z', inv z -> adv (Index t z s) 1 = Some (Index t z' s) -> inv z') ->
  forall fuel b l, inv b -> seq_for fuel (Index t b s) (Index t e s) <> Visits l.
Proof.
  intros N St. induction fuel as [|f IH]; intros b l Hb; cbn [seq_for eq_it]; (replace (b =? e) with false by (symmetry; apply Z.eqb_neq; auto)); [discriminate|].
  cbn [deref]. destruct (adv (Index t b s) 1) as [b'|] eqn:A; [|discriminate].
  assert (B : exists z, b' = Index t z s).
  { cbn [adv] in A. destruct (arith (diff_t t) _) as [x|]; [|discriminate]. cbn in A. destruct (arith t _) as [y|]; [|discriminate]. injection A as <-. eauto. }
  destruct B as [z ->]. specialize (IH z). destruct (seq_for f (Index t z s) (Index t e s)) as [l'| |] eqn:E; [|discriminate|discriminate].
  exfalso. exact (IH l' (St b z Hb A) eq_refl).
Qed.
