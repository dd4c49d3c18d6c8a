From Coq Require Import List ZArith Arith Bool Lia Permutation.
From Verif Require Import LdModel LdSpec LdProofs LeModel LeSpec.
Import ListNotations.
Local Open Scope nat_scope.

Lemma land7 x : Z.land x 7 = (x mod 8)%Z.
Proof. change 7%Z with (Z.ones 3). rewrite Z.land_ones by lia. reflexivity. Qed.

Lemma block_of_spec d k : block_of d = k <-> aligned k /\ in_block k d.
Proof.
  destruct d as [[x y] z], k as [[a b] c]. unfold block_of, aligned, in_block. rewrite !land7.
  pose proof (Z.div_mod x 8 ltac:(lia)). pose proof (Z.div_mod y 8 ltac:(lia)). pose proof (Z.div_mod z 8 ltac:(lia)).
  pose proof (Z.mod_pos_bound x 8 ltac:(lia)). pose proof (Z.mod_pos_bound y 8 ltac:(lia)). pose proof (Z.mod_pos_bound z 8 ltac:(lia)).
  split.
  - intros E. injection E as <- <- <-. split; [| lia].
    split; [exists (x / 8)%Z; lia |]. split; [exists (y / 8)%Z; lia | exists (z / 8)%Z; lia].
  - intros [((u & Hu) & (v & Hv) & (w & Hw)) (A & B & C)].
    assert (u = x / 8)%Z by lia. assert (v = y / 8)%Z by lia. assert (w = z / 8)%Z by lia. f_equal; [f_equal |]; lia.
Qed.

Lemma in_block_spec k c : in_block k c <-> exists ci, ci < 512 /\ c = add k (cellid_to_coord ci).
Proof.
  destruct k as [[x y] z], c as [[a b] c]. unfold in_block, add, cellid_to_coord. split.
  - intros (A & B & C). exists (Z.to_nat ((a - x) * 64 + (b - y) * 8 + (c - z))). split; [lia |].
    rewrite Z2Nat.id by lia. rewrite !land7, !Z.shiftr_div_pow2 by lia. change (2 ^ 3)%Z with 8%Z.
    set (t := ((a - x) * 64 + (b - y) * 8 + (c - z))%Z).
    assert (E1 : (t / 8 = (a - x) * 8 + (b - y))%Z) by (symmetry; apply (Z.div_unique t 8 _ (c - z)); unfold t; lia).
    assert (E2 : (t mod 8 = c - z)%Z) by (symmetry; apply (Z.mod_unique t 8 ((a - x) * 8 + (b - y))); unfold t; lia).
    rewrite E1, E2.
    assert (E3 : (((a - x) * 8 + (b - y)) / 8 = a - x)%Z) by (symmetry; apply (Z.div_unique _ 8 _ (b - y)); lia).
    assert (E4 : (((a - x) * 8 + (b - y)) mod 8 = b - y)%Z) by (symmetry; apply (Z.mod_unique _ 8 (a - x)); lia).
    rewrite E3, E4, Z.mod_small by lia. f_equal; [f_equal |]; lia.
  - intros (ci & Hci & E). injection E as -> -> ->. rewrite !land7.
    pose proof (Z.mod_pos_bound (Z.of_nat ci) 8 ltac:(lia)).
    pose proof (Z.mod_pos_bound (Z.shiftr (Z.of_nat ci) 3) 8 ltac:(lia)).
    pose proof (Z.mod_pos_bound (Z.shiftr (Z.shiftr (Z.of_nat ci) 3) 3) 8 ltac:(lia)). lia.
Qed.

Lemma touching_spec c d : touching c d <-> exists o, In o offs /\ d = add c o.
Proof.
  destruct c as [[x y] z], d as [[a b] c]. unfold touching, add. split.
  - intros H. exists (a - x, b - y, c - z)%Z. split; [apply in_offs; exact H |]. f_equal; [f_equal |]; lia.
  - intros ([[u v] w] & Ho & E). apply in_offs in Ho. injection E as -> -> ->. lia.
Qed.

(** The cell a visit looks at. *)
Definition at_ (k : key) (ci : nat) (o : key) : key := add (add k (cellid_to_coord ci)) o.

Lemma visits_spec neg : forall order s0 s, consistent s -> keeps s0 s -> (forall b v, In (b, v) order -> b < cnt s0) ->
  consistent (visits neg order s) /\ keeps s (visits neg order s) /\
  (forall k, tab (visits neg order s) k <> None <-> tab s k <> None \/
     exists b ci o, In (b, (ci, o)) order /\ neg (at_ (akeys s0 b) ci o) = true /\ k = block_of (at_ (akeys s0 b) ci o)).
Proof.
  unfold visits. induction order as [| [b [ci o]] r IH]; intros s0 s Hc Hk Hb; cbn [fold_left].
  - split; [exact Hc |]. split; [split; auto |]. intros k. split; [auto |]. intros [H | (b & ci & o & [] & _)]. exact H.
  - assert (Ea : akeys s b = akeys s0 b) by (apply (proj2 Hk); apply (Hb b (ci, o)); now left).
    set (c := at_ (akeys s0 b) ci o).
    assert (Hv : consistent (visit neg s (b, (ci, o))) /\ keeps s (visit neg s (b, (ci, o))) /\
      (forall k, tab (visit neg s (b, (ci, o))) k <> None <-> tab s k <> None \/ (neg c = true /\ k = block_of c))).
    { unfold visit. rewrite Ea. fold (at_ (akeys s0 b) ci o). fold c. cbv zeta.
      destruct (tab s (block_of c)) as [i |] eqn:E.
      - split; [exact Hc |]. split; [split; auto |]. intros k. split; [auto |]. intros [H | [_ ->]]; [exact H | congruence].
      - destruct (neg c).
        + destruct (insert_spec s (block_of c) Hc) as (C1 & K1 & _ & T1). split; [exact C1 |]. split; [exact K1 |].
          intros k. rewrite T1. intuition.
        + split; [exact Hc |]. split; [split; auto |]. intros k. intuition discriminate. }
    destruct Hv as (C1 & K1 & T1).
    destruct (IH s0 (visit neg s (b, (ci, o))) C1) as (C2 & K2 & T2).
    + eapply keeps_trans; eassumption.
    + intros b' v' H. apply (Hb b' v'). right. exact H.
    + split; [exact C2 |]. split; [eapply keeps_trans; eassumption |].
      intros k. rewrite T2, T1. split.
      * intros [[H | [H ->]] | (b' & ci' & o' & H & H1 & H2)]; [auto | right; exists b, ci, o; split; [now left | auto] | right; exists b', ci', o'; split; [right; exact H | auto]].
      * intros [H | (b' & ci' & o' & [H | H] & H1 & H2)]; [auto | injection H as <- <- <-; left; right; auto | right; exists b', ci', o'; auto].
Qed.

(** Blocks before base have been expanded. *)
Definition done_upto neg (base : nat) (s : spls) : Prop :=
  base <= cnt s /\ forall i ci o, i < base -> ci < 512 -> In o offs ->
    neg (at_ (akeys s i) ci o) = true -> tab s (block_of (at_ (akeys s i) ci o)) <> None.

Definition orders_ok (orders : nat -> nat -> list (nat * (nat * key))) : Prop :=
  forall b m, Permutation (orders b m) (round b m).

Lemma in_round b m i ci o : In (i, (ci, o)) (round b m) <-> b <= i < m /\ ci < 512 /\ In o offs.
Proof.
  unfold round. rewrite !in_prod_iff, !in_seq. split; intros (A & B & C); repeat split; try assumption; lia.
Qed.

Lemma round_spec neg order base s : consistent s -> done_upto neg base s -> Permutation order (round base (cnt s)) ->
  let s' := visits neg order s in
  consistent s' /\ keeps s s' /\ done_upto neg (cnt s) s' /\
  (forall k, tab s' k <> None -> tab s k <> None \/
     exists b ci o, base <= b < cnt s /\ ci < 512 /\ In o offs /\ neg (at_ (akeys s b) ci o) = true /\ k = block_of (at_ (akeys s b) ci o)).
Proof.
  intros Hc [Hb Hd] Hp s'.
  destruct (visits_spec neg order s s Hc) as (C & K & T).
  - split; auto.
  - intros b [ci o] H. apply (Permutation_in _ Hp) in H. apply in_round in H. lia.
  - fold s' in C, K, T. split; [exact C |]. split; [exact K |]. split.
    + split; [apply K |]. intros i ci o Hi Hci Ho Hn. rewrite (proj2 K) in * by exact Hi. apply T.
      destruct (le_lt_dec base i) as [L | L].
      * right. exists i, ci, o. split; [| auto]. apply (Permutation_in _ (Permutation_sym Hp)). apply in_round. auto.
      * left. apply Hd; assumption.
    + intros k H. apply T in H. destruct H as [H | (b & ci & o & H & H1 & H2)]; [auto | right].
      apply (Permutation_in _ Hp) in H. apply in_round in H. exists b, ci, o. intuition.
Qed.

Definition sound neg (s0 s : spls) : Prop := forall k, tab s k <> None -> reached neg s0 k.

Lemma round_sound neg order base s0 s : consistent s -> done_upto neg base s -> Permutation order (round base (cnt s)) ->
  sound neg s0 s -> sound neg s0 (visits neg order s).
Proof.
  intros Hc Hd Hp Hs k Hk. destruct (round_spec neg order base s Hc Hd Hp) as (_ & _ & _ & T).
  apply T in Hk. destruct Hk as [Hk | (b & ci & o & Hb & Hci & Ho & Hn & E)]; [auto |].
  symmetry in E. apply block_of_spec in E. destruct E as [E1 E2].
  eapply r_step with (k := akeys s b) (c := add (akeys s b) (cellid_to_coord ci)); [| | | exact Hn | exact E1 | exact E2].
  - apply Hs. assert (tab s (akeys s b) = Some b) by (apply Hc; split; [lia | reflexivity]). congruence.
  - apply in_block_spec. exists ci. auto.
  - apply touching_spec. exists o. auto.
Qed.

Lemma closed_complete neg s0 s : consistent s -> keeps s0 s -> consistent s0 -> done_upto neg (cnt s) s ->
  forall k, reached neg s0 k -> tab s k <> None.
Proof.
  intros Hc Hk H0 [_ Hd] k H. induction H as [k H | k c d k' _ IH Hb Ht Hn Ha Hk'].
  - destruct (tab s0 k) as [i |] eqn:E; [| congruence]. apply H0 in E. destruct E as [E1 E2].
    assert (tab s k = Some i) by (apply Hc; split; [destruct Hk; lia | rewrite (proj2 Hk) by exact E1; exact E2]). congruence.
  - destruct (tab s k) as [i |] eqn:E; [| congruence]. apply Hc in E. destruct E as [E1 <-].
    apply in_block_spec in Hb. destruct Hb as (ci & Hci & ->). apply touching_spec in Ht. destruct Ht as (o & Ho & ->).
    assert (E : block_of (at_ (akeys s i) ci o) = k') by (apply block_of_spec; split; assumption).
    rewrite <- E. apply Hd; assumption.
Qed.

Lemma expand_done neg orders : orders_ok orders -> forall fuel base s0 s s', consistent s0 -> consistent s -> keeps s0 s ->
  done_upto neg base s -> sound neg s0 s -> expand neg orders fuel base s = Done s' ->
  consistent s' /\ keeps s0 s' /\ (forall k, tab s' k <> None <-> reached neg s0 k).
Proof.
  intros Ho. induction fuel as [| f IH]; intros base s0 s s' H0 Hc Hk Hd Hs E; [discriminate |].
  cbn [expand] in E. destruct (round_spec neg (orders base (cnt s)) base s Hc Hd (Ho _ _)) as (C & K & D & _).
  pose proof (round_sound neg (orders base (cnt s)) base s0 s Hc Hd (Ho _ _) Hs) as S1.
  set (t := visits neg (orders base (cnt s)) s) in *. pose proof (keeps_trans _ _ _ Hk K) as Kt.
  destruct (Nat.ltb _ (cnt t)); [discriminate |]. destruct (Nat.eqb_spec (cnt t) (cnt s)) as [En | En].
  - injection E as <-. split; [exact C |]. split; [exact Kt |]. intros k. split; [apply S1 |].
    apply closed_complete; auto. rewrite En. exact D.
  - apply (IH (cnt s) s0 t s'); auto.
Qed.

Lemma keys_nodup s : consistent s -> forall n a, a + n <= cnt s -> NoDup (map (akeys s) (seq a n)).
Proof.
  intros Hc. induction n as [| n IH]; intros a Ha; cbn [seq map]; constructor.
  - intros H. apply in_map_iff in H. destruct H as (j & E & Hj). apply in_seq in Hj.
    apply consistent_inj in E; [lia | exact Hc | lia | lia].
  - apply IH. lia.
Qed.

Lemma count_bound s L : consistent s -> (forall k, tab s k <> None -> In k L) -> cnt s <= length L.
Proof.
  intros Hc H. pose proof (keys_nodup s Hc (cnt s) 0 ltac:(lia)) as Hn.
  apply (NoDup_incl_length (l' := L)) in Hn; [rewrite map_length, seq_length in Hn; exact Hn |].
  intros k Hk. apply in_map_iff in Hk. destruct Hk as (i & <- & Hi). apply in_seq in Hi. apply H.
  assert (tab s (akeys s i) = Some i) by (apply Hc; split; [lia | reflexivity]). congruence.
Qed.

(** The block of a cell near a cell of an aligned block is one of its neighbours. *)
Lemma near_block k ci o : aligned k -> ci < 512 -> In o offs -> exists o', In o' offs /\ block_of (at_ k ci o) = shift k o'.
Proof.
  intros Ha Hci Ho. assert (Hb : in_block k (add k (cellid_to_coord ci))) by (apply in_block_spec; eauto).
  assert (Ht : touching (add k (cellid_to_coord ci)) (at_ k ci o)) by (apply touching_spec; eauto).
  destruct (block_of (at_ k ci o)) as [[u v] w] eqn:E. apply block_of_spec in E. destruct E as [E1 E2].
  destruct k as [[x y] z]. destruct (add (x, y, z) (cellid_to_coord ci)) as [[a b] c]. destruct (at_ (x, y, z) ci o) as [[a' b'] c'].
  unfold aligned, in_block, touching in *. destruct Ha as ((p & ->) & (q & ->) & (r & ->)), E1 as ((p' & ->) & (q' & ->) & (r' & ->)).
  exists (p' - p, q' - q, r' - r)%Z. split; [apply in_offs; lia |]. cbn [shift]. f_equal; [f_equal |]; lia.
Qed.

Definition all_aligned (s : spls) : Prop := forall k, tab s k <> None -> aligned k.

Lemma round_aligned neg order base s : consistent s -> done_upto neg base s -> Permutation order (round base (cnt s)) ->
  all_aligned s -> all_aligned (visits neg order s).
Proof.
  intros Hc Hd Hp Ha k Hk. destruct (round_spec neg order base s Hc Hd Hp) as (_ & _ & _ & T). apply T in Hk.
  destruct Hk as [Hk | (b & ci & o & _ & _ & _ & _ & E)]; [auto |]. symmetry in E. apply block_of_spec in E. apply E.
Qed.

Lemma round_room neg order base s : consistent s -> done_upto neg base s -> Permutation order (round base (cnt s)) ->
  all_aligned s -> cnt (visits neg order s) <= (cnt s - base) * 26 + cnt s.
Proof.
  intros Hc Hd Hp Ha. destruct (round_spec neg order base s Hc Hd Hp) as (C & K & _ & T).
  set (s' := visits neg order s) in *.
  set (nz := filter (fun o => negb (key_eqb o (0, 0, 0)%Z)) offs).
  assert (Hlen : length nz = 26) by reflexivity.
  assert (Hn : NoDup (map (akeys s') (seq (cnt s) (cnt s' - cnt s)))) by (apply keys_nodup; [exact C | destruct K; lia]).
  assert (Hi : incl (map (akeys s') (seq (cnt s) (cnt s' - cnt s)))
                (map (fun '(b, o) => shift (akeys s b) o) (list_prod (seq base (cnt s - base)) nz))).
  { intros k Hk. apply in_map_iff in Hk. destruct Hk as (j & <- & Hj). apply in_seq in Hj.
    assert (Hnew : tab s (akeys s' j) = None).
    { destruct (tab s (akeys s' j)) as [i |] eqn:E; [| reflexivity]. apply Hc in E. destruct E as [E1 E2].
      rewrite <- (proj2 K) in E2 by exact E1. apply consistent_inj in E2; [lia | exact C | lia | lia]. }
    assert (Hold : tab s' (akeys s' j) <> None) by (assert (tab s' (akeys s' j) = Some j) by (apply C; split; [lia | reflexivity]); congruence).
    apply T in Hold. destruct Hold as [Hold | (b & ci & o & Hb & Hci & Ho & _ & E)]; [congruence |].
    assert (Hbt : tab s (akeys s b) = Some b) by (apply Hc; split; [lia | reflexivity]).
    destruct (near_block (akeys s b) ci o) as (o' & Ho' & E'); [apply Ha; congruence | exact Hci | exact Ho |].
    rewrite E' in E. apply in_map_iff. exists (b, o'). split; [symmetry; exact E |]. apply in_prod_iff. split; [apply in_seq; lia |].
    unfold nz. apply filter_In. split; [exact Ho' |]. apply negb_true_iff. apply key_eqb_neq. intros ->.
    rewrite shift_zero in E. rewrite E in Hnew. congruence. }
  apply (NoDup_incl_length Hn) in Hi. rewrite !map_length, prod_length, !seq_length, Hlen in Hi. lia.
Qed.

Lemma expand_room neg orders : orders_ok orders -> forall fuel base s, consistent s -> done_upto neg base s -> all_aligned s ->
  expand neg orders fuel base s <> Overflow.
Proof.
  intros Ho. induction fuel as [| f IH]; intros base s Hc Hd Ha; [discriminate |]. cbn [expand].
  destruct (round_spec neg (orders base (cnt s)) base s Hc Hd (Ho _ _)) as (C & K & D & _).
  pose proof (round_room neg (orders base (cnt s)) base s Hc Hd (Ho _ _) Ha).
  pose proof (round_aligned neg (orders base (cnt s)) base s Hc Hd (Ho _ _) Ha).
  set (t := visits neg (orders base (cnt s)) s) in *. destruct (Nat.ltb_spec ((cnt s - base) * 26 + cnt s) (cnt t)); [lia |].
  destruct (Nat.eqb (cnt t) (cnt s)); [discriminate |]. apply IH; assumption.
Qed.

Lemma expand_ends neg orders : orders_ok orders -> forall L fuel base s0 s, consistent s -> done_upto neg base s -> sound neg s0 s ->
  (forall k, reached neg s0 k -> In k L) -> length L < fuel + cnt s -> expand neg orders fuel base s <> Running.
Proof.
  intros Ho L. induction fuel as [| f IH]; intros base s0 s Hc Hd Hs HL Hf.
  - pose proof (count_bound s L Hc (fun k Hk => HL k (Hs k Hk))). lia.
  - cbn [expand]. destruct (round_spec neg (orders base (cnt s)) base s Hc Hd (Ho _ _)) as (C & K & D & _).
    pose proof (round_sound neg (orders base (cnt s)) base s0 s Hc Hd (Ho _ _) Hs) as S1.
    set (t := visits neg (orders base (cnt s)) s) in *. destruct (Nat.ltb _ (cnt t)); [discriminate |].
    destruct (Nat.eqb_spec (cnt t) (cnt s)) as [E | E]; [discriminate |].
    apply (IH (cnt s) s0 t); auto. destruct K. lia.
Qed.
