(** Codec facts for the hierarchy, and list facts about scattering and ranks. *)
From Verif Require Import Prelude AgridModel AgridSpec AgridProofs AghModel AghSpec.
Open Scope nat_scope.

Section Codec.
Variables (T C : list Z) (dim n : nat).
Hypothesis K : params_ok T C dim n.
Notation key := (coord_to_key T C).
Local Notation hoff := (hoff T C).
Local Notation toff := (toff T C).
Local Notation hpos := (hpos T C dim).
Local Notation hsz := (hsz T C dim).
Local Notation tsz := (tsz T dim).

Lemma cfg : cfg_ok T C. Proof. exact (proj1 K). Qed.
Lemma dpos : 0 < dim. Proof. exact (proj1 (proj2 K)). Qed.
Lemma nlen : length T = n. Proof. exact (proj1 (proj2 (proj2 K))). Qed.
Lemma sm_h i : i < n -> small T C dim i (hierarchy_bits T C i).
Proof. intro H. destruct K as (_ & _ & _ & A). destruct (A i H) as (A1 & A2 & _). split; assumption. Qed.
Lemma sm_t i : i < n -> small T C dim i (tile_bits T i).
Proof. intro H. destruct K as (_ & _ & _ & A). destruct (A i H) as (A1 & _ & A3). split; assumption. Qed.
Lemma ne (c : coord) : length c = dim -> c <> [].
Proof. intros H E. subst c. cbn in H. pose proof dpos. lia. Qed.
Lemma key_len i (c : coord) : length (key i c) = length c. Proof. apply map_length. Qed.
Lemma key_key i j c : i <= j < n -> key j (key i c) = key j c.
Proof. intro H. apply key_nest; [exact cfg|]. rewrite nlen. exact H. Qed.

Lemma hoff_ok i c : i < n -> length c = dim -> exists m, hoff i c = Some m /\ m < hsz i.
Proof.
  intros Hi Hc. destruct (hier_dec_enc T C i c cfg) as (off & o & E & R & _); [rewrite nlen; exact Hi|exact (ne c Hc)|rewrite Hc; exact (sm_h i Hi)|].
  unfold AghModel.hoff. rewrite E. eexists. split; [reflexivity|]. unfold AghModel.hsz. rewrite Hc in R. lia.
Qed.
Lemma toff_ok i c : i < n -> length c = dim -> exists m, toff i c = Some m /\ coord_to_tile_offset T C i c = Some (Z.of_nat m) /\ m < tsz i.
Proof.
  intros Hi Hc. destruct (tile_dec_enc T C i c cfg) as (off & o & E & R & _); [rewrite nlen; exact Hi|exact (ne c Hc)|rewrite Hc; exact (sm_t i Hi)|].
  unfold AghModel.toff. rewrite E. exists (Z.to_nat off). cbn. rewrite Hc in R. split; [reflexivity|]. split; [f_equal; lia|]. unfold AghModel.tsz. lia.
Qed.
Lemma ebit_le i j : i <= j < n -> (0 <= ebit T C i <= ebit T C j)%Z.
Proof.
  intro H. split; [apply ebit_nonneg; [exact cfg|rewrite nlen; lia]|]. destruct H as [H1 H2].
  induction j as [|j IH]; [replace i with 0 by lia; lia|]. destruct (Nat.eq_dec i (S j)) as [->|]; [lia|].
  pose proof (hier_split T C (S j)) as Q. pose proof (proj2 cfg (S j) ltac:(rewrite nlen; lia)) as [_ ?]. cbn [end_prev] in Q. specialize (IH ltac:(lia) ltac:(lia)). lia.
Qed.
Lemma mod_mod_pow x a b : (0 <= a <= b)%Z -> ((x mod 2 ^ b) mod 2 ^ a = x mod 2 ^ a)%Z.
Proof.
  intro H. replace (2 ^ b)%Z with (2 ^ a * 2 ^ (b - a))%Z by (rewrite <- Z.pow_add_r by lia; f_equal; lia).
  assert (0 < 2 ^ a)%Z by (apply Z.pow_pos_nonneg; lia). assert (0 < 2 ^ (b - a))%Z by (apply Z.pow_pos_nonneg; lia).
  rewrite Z.rem_mul_r by lia. rewrite Z.mul_comm, Z_mod_plus_full. apply Z.mod_mod. lia.
Qed.
Lemma child_pos i c m : S i < n -> length c = dim -> hoff (S i) c = Some m -> exists d, hpos (S i) m = Some d /\ vadd (key (S i) c) d = key i c.
Proof.
  intros Hi Hc. destruct (hier_dec_enc T C (S i) c cfg) as (off & o & E & R & D & _ & F); [rewrite nlen; exact Hi|exact (ne c Hc)|rewrite Hc; exact (sm_h _ Hi)|].
  unfold AghModel.hoff. rewrite E. cbn. intro Q. injection Q as <-. exists o. unfold AghModel.hpos. rewrite Hc in D. rewrite Z2Nat.id by lia. split; [exact D|].
  pose proof (ebit_le i (S i) ltac:(lia)) as Le. cbn [end_prev] in F. unfold coord_to_key, vadd.
  clear - F Le. induction F as [|x y c o P F IH]; [reflexivity|]. cbn [map combine fst snd]. f_equal; [|exact IH].
  rewrite !key_val by lia. destruct P as [[q ->] P].
  pose proof (mod_mod_pow x (ebit T C i) (ebit T C (S i)) ltac:(lia)) as M. assert (0 < 2 ^ ebit T C i)%Z by (apply Z.pow_pos_nonneg; lia).
  assert (x mod 2 ^ ebit T C (S i) - q * 2 ^ ebit T C i = x mod 2 ^ ebit T C i)%Z; [|lia].
  rewrite <- M. apply (Z.mod_unique _ _ q); [left; lia|]. lia.
Qed.
Lemma vadd_len (a b : coord) : length a = length b -> length (vadd a b) = length a.
Proof. intro H. unfold vadd. rewrite map_length, combine_length. lia. Qed.
Lemma hpos_ok i k m : S i < n -> length k = dim -> key (S i) k = k -> m < hsz (S i) ->
  exists d, hpos (S i) m = Some d /\ length (vadd k d) = dim /\ key i (vadd k d) = vadd k d /\ key (S i) (vadd k d) = k /\ hoff (S i) (vadd k d) = Some m.
Proof.
  intros Hi Hk Kk Hm.
  destruct (hier_enc_dec T C dim (S i) (Z.of_nat m) cfg) as (d & D & Ld & E & F); [rewrite nlen; exact Hi|exact dpos|exact (sm_h _ Hi)|unfold AghModel.hsz in Hm; lia|].
  exists d. unfold AghModel.hpos. split; [exact D|]. pose proof (ebit_le i (S i) ltac:(lia)) as Le. cbn [end_prev] in F.
  assert (Lv : length (vadd k d) = dim) by (rewrite vadd_len; lia). split; [exact Lv|].
  assert (Mk : Forall (fun x => x mod 2 ^ ebit T C (S i) = 0)%Z k).
  { clear - Kk Le. unfold coord_to_key in Kk. induction k as [|x k IH]; [constructor|]. cbn [map] in Kk. injection Kk as E1 E2. constructor; [|exact (IH E2)].
    rewrite key_val in E1 by lia. lia. }
  assert (P1 : (0 < 2 ^ ebit T C i)%Z) by (apply Z.pow_pos_nonneg; lia). assert (P2 : (0 < 2 ^ ebit T C (S i))%Z) by (apply Z.pow_pos_nonneg; lia).
  assert (Q : Forall2 (fun x y => (x mod 2 ^ ebit T C (S i) = y mod 2 ^ ebit T C (S i))%Z) (vadd k d) d).
  { assert (L : length k = length d) by lia. clear - Mk L P2. revert d L. induction Mk as [|x k Hx Mk IH]; intros [|y d] L; try discriminate; [constructor|].
    unfold vadd. cbn [combine map fst snd]. constructor; [|apply IH; cbn in L; lia].
    rewrite <- Z.add_mod_idemp_l by lia. rewrite Hx. reflexivity. }
  split; [|split].
  - unfold coord_to_key. assert (L : length k = length d) by lia. clear - Mk F L P1 Le. revert d L F. induction Mk as [|x k Hx Mk IH]; intros [|y d] L F; try discriminate; [reflexivity|].
    unfold vadd. cbn [combine map fst snd]. inversion F as [|? ? (q & Hq & _) F']; subst. f_equal; [|apply IH; [cbn in L; lia|exact F']].
    rewrite key_val by lia. pose proof (mod_mod_pow x (ebit T C i) (ebit T C (S i)) ltac:(lia)) as M. rewrite Hx in M. rewrite Z.mod_0_l in M by lia.
    assert ((x + q * 2 ^ ebit T C i) mod 2 ^ ebit T C i = 0)%Z by (rewrite Z_mod_plus_full; congruence). lia.
  - rewrite <- Kk at 2. unfold coord_to_key. assert (L : length k = length d) by lia. clear - Mk F L P2 Le. revert d L F. induction Mk as [|x k Hx Mk IH]; intros [|y d] L F; try discriminate; [reflexivity|].
    unfold vadd. cbn [combine map fst snd]. inversion F as [|? ? (q & Hq & B) F']; subst. f_equal; [|apply IH; [cbn in L; lia|exact F']].
    rewrite !key_val by lia. rewrite Z.add_mod by lia. rewrite Hx. rewrite Z.add_0_l, Z.mod_mod by lia. rewrite (Z.mod_small _ _ B). lia.
  - unfold AghModel.hoff. assert (A : coord_to_hierarchy_offset T C (S i) (vadd k d) = coord_to_hierarchy_offset T C (S i) d).
    { unfold coord_to_hierarchy_offset. pose proof (hier_split T C (S i)) as Hs. pose proof (proj2 cfg (S i) ltac:(rewrite nlen; lia)) as [_ Hh]. destruct (sm_h (S i) Hi) as [S1 S2].
      apply (encode_eq T C (S i) (end_prev T C (S i)) (hierarchy_bits T C (S i))); try lia; try (cbn [end_prev]; lia); try exact (ne _ Lv); try (rewrite Lv; lia).
      rewrite <- Hs. clear - Q. induction Q; constructor; [|assumption]. unfold cellof. rewrite H. reflexivity. }
    rewrite A, E. cbn. f_equal. lia.
Qed.
Lemma hoff_key i c : S i < n -> length c = dim -> hoff (S i) (key i c) = hoff (S i) c.
Proof.
  intros Hi Hc. unfold AghModel.hoff. f_equal. symmetry.
  refine (proj2 (proj1 (child_key T C i c (key i c) cfg _ (ne c Hc) _ _) _)); [rewrite nlen; exact Hi|apply key_len|rewrite Hc; exact (sm_h _ Hi)|].
  symmetry. apply key_key. lia.
Qed.
End Codec.

(** lists *)
Lemma coord_eqb_iff a b : coord_eqb a b = true <-> a = b.
Proof. unfold coord_eqb. destruct (list_eq_dec Z.eq_dec a b); split; congruence. Qed.
Lemma query_some ks k p : query ks k = Some p -> nth_error ks p = Some k.
Proof.
  revert p. induction ks as [|x r IH]; intros p H; [discriminate|]. cbn in H. destruct (coord_eqb x k) eqn:E.
  - injection H as <-. apply coord_eqb_iff in E. subst. reflexivity.
  - destruct (query r k) eqn:Q; [|discriminate]. injection H as <-. cbn. auto.
Qed.
Lemma query_none ks k : query ks k = None <-> ~ In k ks.
Proof.
  induction ks as [|x r IH]; cbn; [tauto|]. destruct (coord_eqb x k) eqn:E.
  - apply coord_eqb_iff in E. split; [discriminate|tauto].
  - assert (x <> k) by (intro; subst; rewrite (proj2 (coord_eqb_iff k k) eq_refl) in E; discriminate).
    destruct (query r k) eqn:Q; cbn; [split; [discriminate|]|]; [|tauto]. intro N. exfalso. apply N. right. apply query_some in Q. eapply nth_error_In; eauto.
Qed.
Lemma query_nth ks k p : NoDup ks -> nth_error ks p = Some k -> query ks k = Some p.
Proof.
  intros N H. destruct (query ks k) as [q|] eqn:Q.
  - apply query_some in Q. f_equal. eapply (proj1 (NoDup_nth_error ks)); [exact N| |congruence]. apply nth_error_some_lt in Q. exact Q.
  - apply query_none in Q. elim Q. eapply nth_error_In; eauto.
Qed.
Lemma mapM_some {A B} (f : A -> option B) l : (forall x, In x l -> exists y, f x = Some y) -> exists r, mapM f l = Some r.
Proof.
  induction l as [|x l IH]; intro H; cbn; [eauto|]. destruct (H x (or_introl eq_refl)) as [y E]. rewrite E. destruct IH as [r Er]; [intros; apply H; right; assumption|]. rewrite Er. eauto.
Qed.
Lemma mapM_nth {A B} (f : A -> option B) l r : mapM f l = Some r -> length r = length l /\ forall i x, nth_error l i = Some x -> exists y, f x = Some y /\ nth_error r i = Some y.
Proof.
  revert r. induction l as [|x l IH]; intros r H; cbn in H.
  - injection H as <-. split; [reflexivity|]. intros [|i] y Q; discriminate.
  - destruct (f x) as [y|] eqn:E; [|discriminate]. destruct (mapM f l) as [s|]; [|discriminate]. injection H as <-. destruct (IH s eq_refl) as [L N].
    split; [cbn; lia|]. intros [|i] z Q; cbn in Q |- *; [injection Q as <-; eauto|eauto].
Qed.
Lemma scatter_ok {A} dsts : forall (vs base : list A), length dsts = length vs -> NoDup dsts -> Forall (fun d => d < length base) dsts ->
  exists r, scatter dsts vs base = Some r /\ length r = length base /\
    (forall i d v, nth_error dsts i = Some d -> nth_error vs i = Some v -> nth_error r d = Some v) /\
    (forall d, ~ In d dsts -> nth_error r d = nth_error base d).
Proof.
  induction dsts as [|d ds IH]; intros vs base L N F; cbn.
  - exists base. repeat split; auto. intros [|i] d v Q; discriminate.
  - destruct vs as [|v vs]; [discriminate|]. inversion N; inversion F; subst. destruct (upd_some base d v H5) as [b E]. rewrite E.
    pose proof (upd_length _ _ _ _ E) as Lb. destruct (IH vs b) as (r & R1 & R2 & R3 & R4); [cbn in L; lia|assumption|rewrite Lb; assumption|].
    exists r. split; [exact R1|]. split; [lia|]. split.
    + intros [|i] x w Q1 Q2; cbn in Q1, Q2; [|eauto]. injection Q1 as <-. injection Q2 as <-. rewrite R4 by assumption. eapply upd_nth_eq; eauto.
    + intros x Hx. rewrite R4 by (intro; apply Hx; right; assumption). eapply upd_nth_neq; [exact E|]. intro. subst. apply Hx. left. reflexivity.
Qed.

(** the position of the n-th bit's child in the list of all children *)
Definition ons (m : list bool) : list nat := filter (fun n => nth n m false) (seq 0 (length m)).
Lemma filter_seq_shift (m : list bool) a s : filter (fun n => nth n (a :: m) false) (seq (S s) (length m)) = map S (filter (fun n => nth n m false) (seq s (length m))).
Proof.
  generalize (length m) as k. intro k. revert s. induction k as [|k IH]; intro s; cbn [seq filter map]; [reflexivity|]. rewrite IH. cbn [nth]. destruct (nth s m false); reflexivity.
Qed.
Lemma ons_cons a m : ons (a :: m) = (if a then [0] else []) ++ map S (ons m).
Proof. unfold ons. cbn [length seq filter]. rewrite filter_seq_shift. cbn [nth]. destruct a; reflexivity. Qed.
Lemma ons_length m : length (ons m) = count_on m.
Proof. induction m as [|a m IH]; [reflexivity|]. rewrite ons_cons, app_length, map_length, IH. unfold count_on. cbn. destruct a; cbn; lia. Qed.
Lemma ons_in m n : In n (ons m) <-> nth_error m n = Some true.
Proof.
  unfold ons. rewrite filter_In, in_seq. split.
  - intros [H1 H2]. destruct (nth_error_lt_some m n) as [b E]; [lia|]. rewrite (nth_error_nth _ _ false E) in H2. congruence.
  - intro E. pose proof (nth_error_some_lt _ _ _ E). rewrite (nth_error_nth _ _ false E). split; [lia|reflexivity].
Qed.
Lemma ons_rank m n : nth_error m n = Some true -> nth_error (ons m) (count_offset m n) = Some n.
Proof.
  revert n. induction m as [|a m IH]; intros n H; [destruct n; discriminate|]. rewrite ons_cons. destruct n as [|n]; cbn in H.
  - injection H as ->. reflexivity.
  - specialize (IH n H). unfold count_offset, count_on in *. cbn [firstn filter]. destruct a; cbn [length]; cbn; apply map_nth_error; exact IH.
Qed.
Lemma NoDup_filter' {A} (f : A -> bool) l : NoDup l -> NoDup (filter f l).
Proof. apply NoDup_filter. Qed.
Lemma ons_nodup m : NoDup (ons m).
Proof. apply NoDup_filter, seq_NoDup. Qed.
Lemma scan_len a l : length (scan_from a l) = S (length l).
Proof. revert a. induction l as [|x l IH]; intro a; cbn; [reflexivity|]. rewrite IH. reflexivity. Qed.
Lemma scan_nth {A} (f : nat -> list A) ms : forall a s p o, nth_error (scan_from a (map (fun q => length (f q)) (seq s ms))) p = Some o -> p < ms ->
  forall r, r < length (f (s + p)) -> exists x, nth_error (f (s + p)) r = Some x /\ nth_error (flat_map f (seq s ms)) (o - a + r) = Some x /\ a <= o.
Proof.
  induction ms as [|ms IH]; intros a s p o H Hp r Hr; [lia|]. cbn [seq map scan_from flat_map] in *. destruct p as [|p].
  - cbn in H. injection H as <-. rewrite Nat.add_0_r in *. rewrite Nat.sub_diag. destruct (nth_error_lt_some (f s) r Hr) as [x E]. exists x. cbn. rewrite nth_error_app1 by lia. auto.
  - cbn in H. replace (s + S p) with (S s + p) in * by lia. destruct (IH _ _ _ _ H ltac:(lia) r Hr) as (x & E1 & E2 & Le). exists x. split; [exact E1|]. split; [|lia].
    rewrite nth_error_app2 by lia. rewrite <- E2. f_equal. lia.
Qed.
