(** * Proofs about the domain of a sparse level set *)

From Coq Require Import List ZArith Arith Bool Lia Permutation.
From Verif Require Import LdModel LdSpec.
Import ListNotations.
Local Open Scope nat_scope.

Lemma key_eqb_eq a b : key_eqb a b = true <-> a = b.
Proof.
  destruct a as [[x y] z], b as [[x' y'] z']. cbn [key_eqb]. rewrite !andb_true_iff, !Z.eqb_eq.
  split; [intros [[-> ->] ->]; reflexivity | intros H; injection H; auto].
Qed.
Lemma key_eqb_refl a : key_eqb a a = true.
Proof. apply key_eqb_eq. reflexivity. Qed.
Lemma key_eqb_neq a b : key_eqb a b = false <-> a <> b.
Proof. destruct (key_eqb a b) eqn:E; split; intros H; try discriminate; try congruence; [apply key_eqb_eq in E; contradiction | intros ->; rewrite key_eqb_refl in E; discriminate]. Qed.

(** ** Scan and compaction *)

Definition kept (marked : nat -> bool) (n : nat) : list nat := filter marked (seq 0 n).

Lemma exscan_nth : forall l a i, i < length l -> nth i (exscan a l) 0 = a + list_sum (firstn i l).
Proof.
  induction l as [| x l IH]; intros a i Hi; cbn in Hi; [lia |]. destruct i as [| i]; cbn [exscan nth firstn].
  - cbn. lia.
  - rewrite IH by lia. unfold list_sum. cbn [fold_right]. lia.
Qed.

Lemma sum_marks (marked : nat -> bool) : forall l, list_sum (map (fun b => if marked b then 1 else 0) l) = length (filter marked l).
Proof. induction l as [| x l IH]; [reflexivity |]. unfold list_sum in *. cbn [map fold_right filter]. rewrite IH. destruct (marked x); reflexivity. Qed.

Lemma firstn_seq : forall n i, i <= n -> forall a, firstn i (seq a n) = seq a i.
Proof.
  induction n as [| n IH]; intros [| i] Hi a; try lia; try reflexivity. cbn [seq firstn]. rewrite IH by lia. reflexivity.
Qed.

Lemma offset_count (marked : nat -> bool) n x i : i <= n ->
  nth i (exscan 0 (map (fun b => if marked b then 1 else 0) (seq 0 n) ++ [x])) 0 = length (kept marked i).
Proof.
  intros Hi. rewrite exscan_nth by (rewrite app_length, map_length, seq_length; cbn; lia). cbn [Nat.add].
  rewrite firstn_app, map_length, seq_length. replace (i - n) with 0 by lia. cbn [firstn]. rewrite app_nil_r.
  rewrite firstn_map, firstn_seq by exact Hi. apply sum_marks.
Qed.

Lemma kept_nth marked n b : b < n -> marked b = true -> nth_error (kept marked n) (length (kept marked b)) = Some b.
Proof.
  intros Hb Hm. unfold kept. replace n with (b + S (n - S b)) by lia. rewrite seq_app, filter_app. cbn [Nat.add seq filter].
  rewrite Hm. rewrite nth_error_app2 by lia. rewrite Nat.sub_diag. reflexivity.
Qed.

Lemma in_kept marked n b : In b (kept marked n) <-> b < n /\ marked b = true.
Proof. unfold kept. rewrite filter_In, in_seq. intuition lia. Qed.

Lemma kept_nodup marked n : NoDup (kept marked n).
Proof. apply NoDup_filter. apply seq_NoDup. Qed.

Lemma wr_spec : forall l i x, i < length l -> exists l', wr l i x = Some l' /\ length l' = length l /\
  forall j, nth_error l' j = if Nat.eqb j i then Some x else nth_error l j.
Proof.
  induction l as [| y l IH]; intros i x Hi; cbn in Hi; [lia |]. destruct i as [| i]; cbn [wr].
  - eexists. split; [reflexivity |]. split; [reflexivity |]. intros [| j]; reflexivity.
  - destruct (IH i x ltac:(lia)) as (l' & -> & L & H). eexists. split; [reflexivity |]. split; [cbn; lia |].
    intros [| j]; [reflexivity |]. cbn [nth_error Nat.eqb]. apply H.
Qed.

Lemma gather_spec marked offsets T : forall order bl D,
  length bl = length T ->
  (forall b, In b (D ++ order) -> marked b = true -> nth_error T (nth b offsets 0) = Some b) ->
  (forall b, In b D -> marked b = true -> nth_error bl (nth b offsets 0) = Some b) ->
  exists bl', gather marked offsets order bl = Some bl' /\ length bl' = length T /\
    forall b, In b (D ++ order) -> marked b = true -> nth_error bl' (nth b offsets 0) = Some b.
Proof.
  induction order as [| b r IH]; intros bl D Hl HT HD; cbn [gather].
  - exists bl. split; [reflexivity |]. split; [exact Hl |]. rewrite app_nil_r. exact HD.
  - assert (Hsub : forall x, In x ((D ++ [b]) ++ r) <-> In x (D ++ b :: r)) by (intros x; rewrite <- app_assoc; reflexivity).
    destruct (marked b) eqn:E.
    + assert (Hb : nth_error T (nth b offsets 0) = Some b) by (apply HT; [apply in_or_app; right; now left | exact E]).
      destruct (wr_spec bl (nth b offsets 0) b) as (bl1 & -> & L1 & H1).
      { rewrite Hl. apply nth_error_Some. congruence. }
      destruct (IH bl1 (D ++ [b])) as (bl' & E' & L' & H').
      * lia.
      * intros x Hx. apply HT. apply Hsub. exact Hx.
      * intros x Hx Mx. rewrite H1. destruct (Nat.eqb_spec (nth x offsets 0) (nth b offsets 0)) as [Eq | Ne].
        -- assert (Hx' : nth_error T (nth x offsets 0) = Some x).
           { apply HT; [| exact Mx]. apply Hsub. apply in_or_app. left. exact Hx. }
           rewrite Eq in Hx'. congruence.
        -- apply in_app_or in Hx. destruct Hx as [Hx | [<- | []]]; [apply HD; assumption | congruence].
      * exists bl'. split; [exact E' |]. split; [exact L' |]. intros x Hx. apply H'. apply Hsub. exact Hx.
    + destruct (IH bl (D ++ [b])) as (bl' & E' & L' & H'); [exact Hl | | |].
      * intros x Hx. apply HT. apply Hsub. exact Hx.
      * intros x Hx Mx. apply in_app_or in Hx. destruct Hx as [Hx | [<- | []]]; [apply HD; assumption | congruence].
      * exists bl'. split; [exact E' |]. split; [exact L' |]. intros x Hx. apply H'. apply Hsub. exact Hx.
Qed.

Lemma nth_error_ext {A} : forall l l' : list A, length l = length l' -> (forall i x, nth_error l' i = Some x -> nth_error l i = Some x) -> l = l'.
Proof.
  induction l as [| a l IH]; intros [| b l'] Hl H; try discriminate; [reflexivity |].
  pose proof (H 0 b eq_refl) as H0. cbn in H0. f_equal; [congruence |]. apply IH; [cbn in Hl; lia |].
  intros i x Hi. exact (H (S i) x Hi).
Qed.

Lemma gather_kept marked n x order bl : length bl = length (kept marked n) -> Permutation order (seq 0 n) ->
  gather marked (exscan 0 (map (fun b => if marked b then 1 else 0) (seq 0 n) ++ [x])) order bl = Some (kept marked n).
Proof.
  intros Hl Hp. set (off := exscan _ _).
  assert (Hoff : forall b, b <= n -> nth b off 0 = length (kept marked b)) by (intros; apply offset_count; assumption).
  assert (Hin : forall b, In b order <-> b < n).
  { intros b. split; intros H; [apply (Permutation_in _ Hp) in H; apply in_seq in H; lia | apply (Permutation_in _ (Permutation_sym Hp)); apply in_seq; lia]. }
  destruct (gather_spec marked off (kept marked n) order bl []) as (bl' & E & L & H); cbn [app].
  - exact Hl.
  - intros b Hb Mb. apply Hin in Hb. rewrite Hoff by lia. apply kept_nth; assumption.
  - intros b [].
  - rewrite E. f_equal. apply nth_error_ext; [exact L |]. intros i b Hi.
    assert (Hb : In b (kept marked n)) by (eapply nth_error_In; exact Hi). apply in_kept in Hb. destruct Hb as [Hb Mb].
    replace i with (nth b off 0); [apply H; [apply Hin; exact Hb | exact Mb] |].
    pose proof (kept_nth marked n b Hb Mb) as Hk. rewrite <- Hoff in Hk by lia.
    eapply (proj1 (NoDup_nth_error (kept marked n)) (kept_nodup marked n)); [| congruence].
    apply nth_error_Some. congruence.
Qed.

(** ** The rebuilt table *)

Definition rebuilt (K : nat -> key) (N n0 : nat) (g0 : nat -> nat -> nat -> Z) (d : list nat) (s : spls) : Prop :=
  (forall i, In i d -> akeys s i = K i) /\
  (forall k i, tab s k = Some i <-> In i d /\ K i = k) /\
  (In 0 d -> cnt s = N) /\ (~ In 0 d -> cnt s = n0) /\ grid s = g0.

Lemma rebuild_spec prev T N n0 g0 : let K := fun j => prev (nth j T 0) in
  forall order d s, NoDup (d ++ order) ->
  (forall i j, In i (d ++ order) -> In j (d ++ order) -> K i = K j -> i = j) ->
  rebuilt K N n0 g0 d s -> rebuilt K N n0 g0 (d ++ order) (rebuild prev T N order s).
Proof.
  intros K. induction order as [| b r IH]; intros d s Hn Hinj Hr; [rewrite app_nil_r; exact Hr |].
  cbn [rebuild]. replace (d ++ b :: r) with ((d ++ [b]) ++ r) in * by (rewrite <- app_assoc; reflexivity).
  apply IH; [exact Hn | exact Hinj |]. clear IH.
  assert (Hb : ~ In b d).
  { rewrite <- app_assoc in Hn. apply NoDup_remove_2 in Hn. intros H. apply Hn. apply in_or_app. left. exact H. }
  destruct Hr as (R1 & R2 & R3 & R4 & R5). fold (K b).
  assert (Hnone : tab s (K b) = None).
  { destruct (tab s (K b)) as [i |] eqn:E; [| reflexivity]. apply R2 in E. destruct E as [E1 E2]. exfalso. apply Hb.
    replace b with i; [exact E1 |]. apply Hinj; [| | exact E2]; apply in_or_app; left; apply in_or_app; [left | right; left]; auto. }
  unfold rebuilt; cbn [akeys tab cnt grid]. split; [| split; [| split; [| split]]].
  - intros i Hi. destruct (Nat.eqb_spec i b) as [-> | Ne]; [reflexivity |]. apply R1.
    apply in_app_or in Hi. destruct Hi as [Hi | [<- | []]]; [exact Hi | contradiction].
  - intros k i. split.
    { intros H. unfold insert_at in H. rewrite Hnone in H. destruct (key_eqb k (K b)) eqn:E.
      - injection H as <-. apply key_eqb_eq in E. split; [apply in_or_app; right; now left | auto].
      - apply R2 in H. destruct H as [H1 H2]. split; [apply in_or_app; left; exact H1 | exact H2]. }
    intros [Hi HK]. unfold insert_at. rewrite Hnone. apply in_app_or in Hi. destruct Hi as [Hi | [<- | []]].
    + destruct (key_eqb k (K b)) eqn:E; [| apply R2; auto].
      apply key_eqb_eq in E. exfalso. apply Hb. replace b with i; [exact Hi |].
      apply Hinj; [| | congruence]; apply in_or_app; left; apply in_or_app; [left | right; left]; auto.
    + rewrite <- HK, key_eqb_refl. reflexivity.
  - intros H. destruct (Nat.eqb_spec b 0) as [-> | Ne]; [reflexivity |]. apply R3.
    apply in_app_or in H. destruct H as [H | [H | []]]; [exact H | contradiction].
  - intros H. destruct (Nat.eqb_spec b 0) as [-> | Ne]; [exfalso; apply H; apply in_or_app; right; now left |].
    apply R4. intros H'. apply H. apply in_or_app. left. exact H'.
  - exact R5.
Qed.

(** ** Refit *)

Lemma cell_mark_spec c thr blk ci : cell_mark c thr blk ci <> 0%Z <->
  exists p chn, In p (props c) /\ chn < p_size p /\ active_value c thr (p_kind p) (blk (p_off p + chn) ci).
Proof.
  unfold cell_mark. destruct (existsb _ (props c)) eqn:E.
  - split; [intros _ | intros _; discriminate]. apply existsb_exists in E. destruct E as (p & Hp & E).
    apply existsb_exists in E. destruct E as (chn & Hc & E). apply in_seq in Hc. exists p, chn.
    split; [exact Hp |]. split; [lia |]. unfold active_value, qualifies in *.
    destruct (p_kind p); [discriminate | left | right]; (split; [reflexivity | apply Z.ltb_lt; exact E]).
  - split; [intros H; contradiction |]. intros (p & chn & Hp & Hc & Ha). exfalso.
    assert (existsb (fun p => existsb (fun chn => qualifies c thr (p_kind p) (blk (p_off p + chn) ci)) (seq 0 (p_size p))) (props c) = true); [| congruence].
    apply existsb_exists. exists p. split; [exact Hp |]. apply existsb_exists. exists chn. split; [apply in_seq; lia |].
    unfold active_value, qualifies in *. destruct Ha as [[-> H] | [-> H]]; apply Z.ltb_lt; exact H.
Qed.

Lemma consistent_inj s i j : consistent s -> i < cnt s -> j < cnt s -> akeys s i = akeys s j -> i = j.
Proof.
  intros Hc Hi Hj E. assert (H1 : tab s (akeys s i) = Some i) by (apply Hc; auto).
  assert (H2 : tab s (akeys s j) = Some j) by (apply Hc; auto). rewrite E in H1. congruence.
Qed.

Lemma marked_active c thr s b : consistent s -> b < cnt s ->
  (block_marked c (mark_level_set c thr s) b = true <-> active_block c thr s (akeys s b)).
Proof.
  intros Hc Hb. unfold block_marked. rewrite existsb_exists. unfold active_block, value.
  assert (Ht : tab s (akeys s b) = Some b) by (apply Hc; auto). rewrite Ht. cbn [grid mark_level_set].
  split.
  - intros (ci & Hi & H). apply in_seq in Hi. apply negb_true_iff in H. apply Z.eqb_neq in H.
    destruct (Nat.ltb_spec b (cnt s)); [| lia]. rewrite Nat.eqb_refl in H. destruct (Nat.ltb_spec ci (bsize c)); [| lia]. cbn [andb] in H.
    apply cell_mark_spec in H. destruct H as (p & chn & Hp & Hch & Ha).
    exists p, chn, ci, (grid s b (p_off p + chn) ci). repeat split; auto; lia.
  - intros (p & chn & ci & x & Hp & Hch & Hi & Hx & Ha). injection Hx as <-. exists ci. split; [apply in_seq; lia |].
    apply negb_true_iff. apply Z.eqb_neq. destruct (Nat.ltb_spec b (cnt s)); [| lia]. rewrite Nat.eqb_refl.
    destruct (Nat.ltb_spec ci (bsize c)); [| lia]. cbn [andb]. apply cell_mark_spec. eauto.
Qed.

Lemma refit_spec c thr junk o1 o2 s : consistent s ->
  Permutation o1 (seq 0 (cnt s)) -> (forall n, Permutation (o2 n) (seq 0 n)) ->
  let m := mark_level_set c thr s in let T := kept (block_marked c m) (cnt s) in
  exists s', refit c thr junk o1 o2 s = Some s' /\
    (T <> [] -> cnt s' = length T) /\ (T = [] -> cnt s' = cnt s) /\
    (forall i, i < length T -> akeys s' i = akeys s (nth i T 0)) /\
    (forall k i, tab s' k = Some i <-> i < length T /\ akeys s (nth i T 0) = k) /\
    (forall i ch ci, i < length T -> ch < nchn c -> ci < bsize c -> grid s' i ch ci = grid m (nth i T 0) ch ci).
Proof.
  intros Hc H1 H2 m T.
  assert (HN : nth (cnt s) (exscan 0 (marks c m junk)) 0 = length T) by (unfold marks; apply offset_count; cbn; lia).
  unfold refit. fold m. change (cnt m) with (cnt s). rewrite HN. unfold marks. change (cnt m) with (cnt s).
  rewrite gather_kept; [| rewrite map_length, seq_length; reflexivity | exact H1]. fold T.
  eexists. split; [reflexivity |]. cbn [cnt akeys tab grid].
  assert (HT : forall i, i < length T -> nth i T 0 < cnt s).
  { intros i Hi. apply (nth_In T 0) in Hi. apply in_kept in Hi. apply Hi. }
  destruct (rebuild_spec (akeys m) T (length T) (cnt s) (grid m) (o2 (length T)) []
    (Spls (cnt s) (akeys m) (fun _ => None) (grid m))) as (R1 & R2 & R3 & R4 & R5); cbn [app].
  - apply (Permutation_NoDup (Permutation_sym (H2 _))). apply seq_NoDup.
  - intros i j Hi Hj E. apply (Permutation_in _ (H2 _)) in Hi, Hj. apply in_seq in Hi, Hj.
    apply consistent_inj in E; [| exact Hc | apply HT; lia | apply HT; lia].
    apply (proj1 (NoDup_nth T 0) (kept_nodup _ _)); [lia | lia | exact E].
  - repeat split; cbn; try contradiction; try discriminate. intros [[] _].
  - cbn [app] in *.
    assert (Hin : forall i, In i (o2 (length T)) <-> i < length T).
    { intros i. split; intros H; [apply (Permutation_in _ (H2 _)) in H; apply in_seq in H; lia | apply (Permutation_in _ (Permutation_sym (H2 _))); apply in_seq; lia]. }
    split; [| split; [| split; [| split]]].
    + intros HT0. apply R3. apply Hin. destruct T; [congruence | cbn; lia].
    + intros HT0. apply R4. rewrite Hin, HT0. cbn. lia.
    + intros i Hi. apply R1. apply Hin. exact Hi.
    + intros k i. rewrite R2, Hin. reflexivity.
    + intros i ch ci Hi Hch Hci. destruct (Nat.ltb_spec i (length T)), (Nat.ltb_spec ch (nchn c)), (Nat.ltb_spec ci (bsize c)); try lia. reflexivity.
Qed.

(** ** Extension *)

Definition keeps (s s' : spls) : Prop :=
  cnt s <= cnt s' /\ forall i, i < cnt s -> akeys s' i = akeys s i.

Lemma insert_spec s k : consistent s ->
  consistent (insert s k) /\ keeps s (insert s k) /\ grid (insert s k) = grid s /\
  (forall k', tab (insert s k) k' <> None <-> tab s k' <> None \/ k' = k).
Proof.
  intros Hc. unfold insert. destruct (tab s k) as [i |] eqn:E.
  - split; [exact Hc |]. split; [split; auto |]. split; [reflexivity |]. intros k'. split; [auto |].
    intros [H | ->]; [exact H | congruence].
  - split; [| split; [| split; [reflexivity |]]].
    + intros k' i. cbn [tab cnt akeys]. destruct (key_eqb k' k) eqn:Ek.
      * apply key_eqb_eq in Ek. subst k'. split.
        -- intros H. injection H as <-. rewrite Nat.eqb_refl. split; [lia | reflexivity].
        -- intros [Hi H]. destruct (Nat.eqb_spec i (cnt s)) as [-> | Ne]; [reflexivity |].
           exfalso. assert (tab s k = Some i) by (apply Hc; split; [lia | exact H]). congruence.
      * apply key_eqb_neq in Ek. rewrite (Hc k' i). destruct (Nat.eqb_spec i (cnt s)) as [-> | Ne].
        -- split; [lia | intros [_ H]; congruence].
        -- intuition lia.
    + split; cbn [cnt akeys]; [lia |]. intros i Hi. destruct (Nat.eqb_spec i (cnt s)); [lia | reflexivity].
    + intros k'. cbn [tab]. destruct (key_eqb k' k) eqn:Ek.
      * apply key_eqb_eq in Ek. split; [auto | discriminate].
      * apply key_eqb_neq in Ek. intuition.
Qed.

Lemma keeps_trans s s1 s2 : keeps s s1 -> keeps s1 s2 -> keeps s s2.
Proof. intros [A B] [C D]. split; [lia |]. intros i Hi. rewrite D by lia. apply B. exact Hi. Qed.

Lemma spawn_spec : forall order s0 s, consistent s -> keeps s0 s -> (forall b o, In (b, o) order -> b < cnt s0) ->
  consistent (spawn order s) /\ keeps s (spawn order s) /\ grid (spawn order s) = grid s /\
  (forall k, tab (spawn order s) k <> None <-> tab s k <> None \/ exists b o, In (b, o) order /\ k = shift (akeys s0 b) o).
Proof.
  unfold spawn. induction order as [| [b o] r IH]; intros s0 s Hc Hk Hb; cbn [fold_left].
  - split; [exact Hc |]. split; [split; auto |]. split; [reflexivity |]. intros k. split; [auto |]. intros [H | (b & o & [] & _)]. exact H.
  - destruct (insert_spec s (shift (akeys s b) o) Hc) as (C1 & K1 & G1 & T1).
    destruct (IH s0 (insert s (shift (akeys s b) o)) C1) as (C2 & K2 & G2 & T2).
    + eapply keeps_trans; eassumption.
    + intros b' o' H. apply (Hb b' o'). right. exact H.
    + split; [exact C2 |]. split; [eapply keeps_trans; eassumption |]. split; [congruence |].
      assert (Ea : akeys s b = akeys s0 b) by (apply (proj2 Hk); apply (Hb b o); now left).
      intros k. rewrite T2, T1, Ea. split.
      * intros [[H | ->] | (b' & o' & H & ->)]; [auto | right; exists b, o; split; [now left | reflexivity] | right; exists b', o'; split; [right; exact H | reflexivity]].
      * intros [H | (b' & o' & [H | H] & ->)]; [auto | injection H as <- <-; auto | right; exists b', o'; auto].
Qed.

Definition near (s0 : spls) (n : Z) (k : key) : Prop := exists i, i < cnt s0 /\ within_blocks n (akeys s0 i) k.

Lemma in_offs a b c : In (a, b, c) offs <-> (Z.abs a <= 1 /\ Z.abs b <= 1 /\ Z.abs c <= 1)%Z.
Proof.
  unfold offs. split.
  - intros H. apply in_flat_map in H. destruct H as (x & Hx & H). apply in_flat_map in H. destruct H as (y & Hy & H).
    apply in_map_iff in H. destruct H as (z & E & Hz). injection E as <- <- <-. cbn in Hx, Hy, Hz. lia.
  - intros (Ha & Hb & Hc). apply in_flat_map. exists a. split; [cbn; lia |]. apply in_flat_map. exists b. split; [cbn; lia |].
    apply in_map_iff. exists c. split; [reflexivity | cbn; lia].
Qed.

Lemma clamp n a : (0 <= n -> Z.abs a <= n + 1 -> exists a' d, a = a' + d /\ Z.abs a' <= n /\ Z.abs d <= 1)%Z.
Proof.
  intros Hn Ha. destruct (Z_le_dec (Z.abs a) n).
  - exists a, 0%Z. lia.
  - destruct (Z_le_dec 0 a); [exists (a - 1)%Z, 1%Z | exists (a + 1)%Z, (-1)%Z]; lia.
Qed.

Lemma near_step s0 n k : (0 <= n)%Z -> (near s0 (n + 1) k <-> exists k' o, near s0 n k' /\ In o offs /\ k = shift k' o).
Proof.
  intros Hn. split.
  - intros (i & Hi & a & b & c & (Ha & Hb & Hc) & H). destruct (akeys s0 i) as [[x y] z] eqn:E.
    destruct (clamp n a Hn Ha) as (a' & da & -> & A1 & A2), (clamp n b Hn Hb) as (b' & db & -> & B1 & B2),
      (clamp n c Hn Hc) as (c' & dc & -> & C1 & C2).
    exists (x + 8 * a', y + 8 * b', z + 8 * c')%Z, (da, db, dc). split; [| split].
    + exists i. split; [exact Hi |]. rewrite E. exists a', b', c'. auto.
    + apply in_offs. auto.
    + subst k. cbn [shift]. f_equal; [f_equal |]; lia.
  - intros (k' & [[da db] dc] & (i & Hi & a & b & c & (Ha & Hb & Hc) & H) & Ho & ->). apply in_offs in Ho.
    exists i. split; [exact Hi |]. destruct (akeys s0 i) as [[x y] z]. subst k'.
    exists (a + da)%Z, (b + db)%Z, (c + dc)%Z. split; [lia |]. cbn [shift]. f_equal; [f_equal |]; lia.
Qed.

Lemma shift_zero k : shift k (0, 0, 0)%Z = k.
Proof. destruct k as [[x y] z]. cbn [shift]. f_equal; [f_equal |]; lia. Qed.

(** A round: blocks before base have all their neighbours already. *)
Definition ready (base : nat) (s : spls) : Prop :=
  base <= cnt s /\ forall i o, i < base -> In o offs -> tab s (shift (akeys s i) o) <> None.

Lemma layer_spec c order base s : consistent s -> ready base s ->
  Permutation order (list_prod (seq base (cnt s - base)) offs) ->
  consistent (layer c order s) /\ keeps s (layer c order s) /\ ready (cnt s) (layer c order s) /\
  (forall i ch ci, i < cnt s -> grid (layer c order s) i ch ci = grid s i ch ci) /\
  (forall k, tab (layer c order s) k <> None <-> exists k' o, tab s k' <> None /\ In o offs /\ k = shift k' o).
Proof.
  intros Hc [Hb Hr] Hp.
  assert (Hin : forall b o, In (b, o) order <-> base <= b < cnt s /\ In o offs).
  { intros b o. split; intros H.
    - apply (Permutation_in _ Hp) in H. apply in_prod_iff in H. rewrite in_seq in H. destruct H as [H1 H2]. split; [lia | exact H2].
    - apply (Permutation_in _ (Permutation_sym Hp)). apply in_prod_iff. rewrite in_seq. split; [lia | apply H]. }
  destruct (spawn_spec order s s Hc) as (C1 & K1 & G1 & T1).
  { split; auto. } { intros b o H. apply Hin in H. lia. }
  assert (HT : forall k, tab (layer c order s) k <> None <-> exists k' o, tab s k' <> None /\ In o offs /\ k = shift k' o).
  { intros k. unfold layer, fresh. cbn [tab]. rewrite T1. split.
    - intros [H | (b & o & H & ->)].
      + exists k, (0, 0, 0)%Z. split; [exact H |]. split; [apply in_offs; lia | symmetry; apply shift_zero].
      + apply Hin in H. exists (akeys s b), o. split; [| split; [apply H | reflexivity]].
        assert (tab s (akeys s b) = Some b) by (apply Hc; split; [lia | reflexivity]). congruence.
    - intros (k' & o & H & Ho & ->). destruct (tab s k') as [b |] eqn:E; [| congruence]. apply Hc in E. destruct E as [E1 <-].
      destruct (le_lt_dec base b) as [L | L]; [right; exists b, o; split; [apply Hin; auto | reflexivity] | left; apply Hr; auto]. }
  split; [exact C1 |]. split; [exact K1 |]. split; [| split; [| exact HT]].
  - split; [apply K1 |]. intros i o Hi Ho. apply HT. exists (akeys s i), o. split; [| split; [exact Ho |]].
    + assert (tab s (akeys s i) = Some i) by (apply Hc; auto). congruence.
    + f_equal. apply (proj2 K1). exact Hi.
  - intros i ch ci Hi. unfold layer, fresh. cbn [grid]. destruct (Nat.leb_spec (cnt s) i); [lia |]. cbn [andb]. rewrite G1. reflexivity.
Qed.

Definition blank (c : setup) (s s' : spls) : Prop := forall i ch ci, cnt s <= i < cnt s' -> ch < nchn c -> ci < bsize c ->
  grid s' i ch ci = match sdf_chn c with Some sc => if Nat.eqb ch sc then (background c + dx c)%Z else 0%Z | None => 0%Z end.

Lemma layer_blank c order s : blank c s (layer c order s).
Proof.
  intros i ch ci Hi Hch Hci. unfold layer, fresh in *. cbn [grid cnt] in *.
  destruct (Nat.leb_spec (cnt s) i); [| lia]. destruct (Nat.ltb_spec i (cnt (spawn order s))); [| lia].
  destruct (Nat.ltb_spec ci (bsize c)); [| lia]. cbn [andb]. destruct (Nat.ltb_spec ch (nchn c)); [| lia].
  destruct (sdf_chn c) as [sc |]; [destruct (Nat.eqb ch sc) |]; reflexivity.
Qed.

Lemma extend_spec c orders s0 : (forall b n, Permutation (orders b n) (list_prod (seq b (n - b)) offs)) ->
  forall n m base s, (0 <= m)%Z -> consistent s -> keeps s0 s -> ready base s ->
  (forall k, tab s k <> None <-> near s0 m k) ->
  (forall i ch ci, i < cnt s0 -> grid s i ch ci = grid s0 i ch ci) -> blank c s0 s ->
  let s' := extend c orders n base s in
  consistent s' /\ keeps s0 s' /\ (forall k, tab s' k <> None <-> near s0 (m + Z.of_nat n) k) /\
  (forall i ch ci, i < cnt s0 -> grid s' i ch ci = grid s0 i ch ci) /\ blank c s0 s'.
Proof.
  intros Ho. induction n as [| n IH]; intros m base s Hm Hc Hk Hr Ht Hg Hb.
  - cbn [extend]. replace (m + Z.of_nat 0)%Z with m by lia. auto.
  - cbn [extend]. destruct (layer_spec c (orders base (cnt s)) base s Hc Hr (Ho _ _)) as (C1 & K1 & R1 & G1 & T1).
    replace (m + Z.of_nat (S n))%Z with ((m + 1) + Z.of_nat n)%Z by lia.
    apply IH; [lia | exact C1 | eapply keeps_trans; eassumption | exact R1 | | |].
    + intros k. rewrite T1, near_step by exact Hm. split; intros (k' & o & H & H'); exists k', o; (split; [apply Ht; exact H | exact H']).
    + intros i ch ci Hi. rewrite G1; [apply Hg; exact Hi | destruct Hk; lia].
    + intros i ch ci Hi Hch Hci. destruct (le_lt_dec (cnt s) i) as [L | L].
      * apply layer_blank; auto; lia.
      * rewrite G1 by exact L. apply Hb; auto; lia.
Qed.

(** The room reserved for a round suffices. *)
Lemma layer_room c order base s : consistent s -> ready base s ->
  Permutation order (list_prod (seq base (cnt s - base)) offs) ->
  cnt (layer c order s) <= (cnt s - base) * 26 + cnt s.
Proof.
  intros Hc Hr Hp. destruct (layer_spec c order base s Hc Hr Hp) as (C1 & K1 & R1 & G1 & T1).
  set (s' := layer c order s) in *.
  set (nz := filter (fun o => negb (key_eqb o (0, 0, 0)%Z)) offs).
  assert (Hlen : length nz = 26) by reflexivity.
  assert (Hn : NoDup (map (akeys s') (seq (cnt s) (cnt s' - cnt s)))).
  { assert (H : forall n a, a + n <= cnt s' -> NoDup (map (akeys s') (seq a n))).
    { induction n as [| n IH]; intros a Ha; cbn [seq map]; constructor.
      - intros H. apply in_map_iff in H. destruct H as (j & E & Hj). apply in_seq in Hj.
        apply consistent_inj in E; [lia | exact C1 | lia | lia].
      - apply IH. lia. }
    apply H. destruct K1. lia. }
  assert (Hi : incl (map (akeys s') (seq (cnt s) (cnt s' - cnt s)))
                (map (fun '(b, o) => shift (akeys s b) o) (list_prod (seq base (cnt s - base)) nz))).
  { intros k Hk. apply in_map_iff in Hk. destruct Hk as (j & <- & Hj). apply in_seq in Hj.
    assert (Hnew : tab s (akeys s' j) = None).
    { destruct (tab s (akeys s' j)) as [i |] eqn:E; [| reflexivity]. apply Hc in E. destruct E as [E1 E2].
      rewrite <- (proj2 K1) in E2 by exact E1. apply consistent_inj in E2; [lia | exact C1 | lia | lia]. }
    assert (Hold : tab s' (akeys s' j) <> None) by (assert (tab s' (akeys s' j) = Some j) by (apply C1; split; [lia | reflexivity]); congruence).
    apply T1 in Hold. destruct Hold as (k' & o & H1 & H2 & H3). destruct (tab s k') as [b |] eqn:E; [| congruence].
    apply Hc in E. destruct E as [E1 <-]. apply in_map_iff. exists (b, o). split; [symmetry; exact H3 |].
    apply in_prod_iff. split.
    - apply in_seq. destruct (le_lt_dec base b) as [L | L]; [lia |]. exfalso.
      apply (proj2 Hr b o L H2). rewrite <- H3. exact Hnew.
    - unfold nz. apply filter_In. split; [exact H2 |]. apply negb_true_iff. apply key_eqb_neq. intros ->.
      rewrite shift_zero in H3. rewrite H3 in Hnew. assert (tab s (akeys s b) = Some b) by (apply Hc; auto). congruence. }
  apply (NoDup_incl_length Hn) in Hi. rewrite !map_length, prod_length, !seq_length, Hlen in Hi. lia.
Qed.

Lemma extend_last c orders : forall n base s,
  extend c orders (S (S n)) base s =
  layer c (orders (cnt (extend c orders n base s)) (cnt (extend c orders (S n) base s))) (extend c orders (S n) base s).
Proof.
  induction n as [| n IH]; intros base s; [reflexivity |].
  change (extend c orders (S (S (S n))) base s) with (extend c orders (S (S n)) (cnt s) (layer c (orders base (cnt s)) s)).
  rewrite IH. reflexivity.
Qed.

Lemma extend_ready c orders : (forall b n, Permutation (orders b n) (list_prod (seq b (n - b)) offs)) ->
  forall n base s, consistent s -> ready base s ->
  consistent (extend c orders n base s) /\ ready (cnt (extend c orders n base s)) (extend c orders (S n) base s).
Proof.
  intros Ho. induction n as [| n IH]; intros base s Hc Hr.
  - cbn [extend]. split; [exact Hc |]. apply (layer_spec c (orders base (cnt s)) base s Hc Hr (Ho _ _)).
  - destruct (layer_spec c (orders base (cnt s)) base s Hc Hr (Ho _ _)) as (C1 & K1 & R1 & _).
    exact (IH (cnt s) (layer c (orders base (cnt s)) s) C1 R1).
Qed.
