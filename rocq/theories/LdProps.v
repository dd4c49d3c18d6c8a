(** * C105: refitting and extending the domain of a sparse level set *)

From Coq Require Import List ZArith Arith Bool Lia Permutation.
From Verif Require Import LdModel LdSpec LdProofs.
Import ListNotations.
Local Open Scope nat_scope.

(** refit_level_set_domain keeps exactly the blocks that hold an active value, with all their
    values, and leaves a consistent numbering; in every order of its loops, whatever the
    uninitialised memory.  Missing: level sets without any active value (next theorem). *)
Theorem C105_refit_partial : forall c thr junk order1 order2 s,
  consistent s -> Permutation order1 (seq 0 (cnt s)) -> (forall n, Permutation (order2 n) (seq 0 n)) ->
  (exists k, active_block c thr s k) ->
  exists s', refit c thr junk order1 order2 s = Some s' /\ consistent s' /\
    (forall k, tab s' k <> None <-> active_block c thr s k) /\
    (forall k ch ci, active_block c thr s k -> ch < nchn c -> ci < bsize c -> ch <> moff c ->
       value s' k ch ci = value s k ch ci).
Proof.
  intros c thr junk o1 o2 s Hc H1 H2 (k0 & Hk0).
  destruct (refit_spec c thr junk o1 o2 s Hc H1 H2) as (s' & E & S1 & _ & S3 & S4 & S5).
  set (T := kept (block_marked c (mark_level_set c thr s)) (cnt s)) in *.
  assert (Hact : forall k, active_block c thr s k <-> exists i, i < length T /\ akeys s (nth i T 0) = k).
  { intros k. split.
    - intros Ha. assert (Ht : exists b, tab s k = Some b).
      { destruct Ha as (p & chn & ci & x & _ & _ & _ & Hx & _). unfold value in Hx. destruct (tab s k); [eauto | discriminate]. }
      destruct Ht as (b & Ht). apply Hc in Ht. destruct Ht as [Hb <-].
      apply marked_active in Ha; [| exact Hc | exact Hb].
      assert (Hin : In b T) by (apply in_kept; auto). apply (In_nth T b 0) in Hin. destruct Hin as (i & Hi & <-). eauto.
    - intros (i & Hi & <-). apply (nth_In T 0) in Hi. apply in_kept in Hi. destruct Hi as [Hb Hm].
      apply marked_active in Hm; assumption. }
  assert (HT : T <> []).
  { apply Hact in Hk0. destruct Hk0 as (i & Hi & _). destruct T; [cbn in Hi; lia | discriminate]. }
  specialize (S1 HT). exists s'. split; [exact E |]. split; [| split].
  - intros k i. rewrite S4, S1. split; intros [A B]; (split; [exact A |]); [rewrite S3 by exact A; exact B | rewrite <- S3 by exact A; exact B].
  - intros k. rewrite Hact. split.
    + intros H. destruct (tab s' k) as [i |] eqn:Et; [| congruence]. apply S4 in Et. eauto.
    + intros (i & Hi). apply S4 in Hi. congruence.
  - intros k ch ci Ha Hch Hci Hm. apply Hact in Ha. destruct Ha as (i & Hi & HK). unfold value.
    assert (Et : tab s' k = Some i) by (apply S4; auto). rewrite Et.
    assert (Hb : nth i T 0 < cnt s) by (apply (nth_In T 0) in Hi; apply in_kept in Hi; apply Hi).
    assert (Es : tab s k = Some (nth i T 0)) by (apply Hc; auto). rewrite Es. f_equal.
    rewrite S5 by assumption. cbn [mark_level_set grid]. destruct (Nat.eqb_spec ch (moff c)); [contradiction |].
    rewrite andb_false_r. reflexivity.
Qed.
Print Assumptions C105_refit_partial.

(** The "mark" channel ends as one on the active cells of the kept blocks and zero on the others. *)
Theorem C105_marks : forall c thr junk order1 order2 s s',
  consistent s -> Permutation order1 (seq 0 (cnt s)) -> (forall n, Permutation (order2 n) (seq 0 n)) ->
  refit c thr junk order1 order2 s = Some s' ->
  forall k ci, tab s' k <> None -> ci < bsize c -> moff c < nchn c ->
    (value s' k (moff c) ci = Some 1%Z <->
       exists p chn x, In p (props c) /\ chn < p_size p /\ value s k (p_off p + chn) ci = Some x /\ active_value c thr (p_kind p) x) /\
    (value s' k (moff c) ci = Some 1%Z \/ value s' k (moff c) ci = Some 0%Z).
Proof.
  intros c thr junk o1 o2 s s' Hc H1 H2 E k ci Hk Hci Hm.
  destruct (refit_spec c thr junk o1 o2 s Hc H1 H2) as (s1 & E1 & _ & _ & S3 & S4 & S5).
  rewrite E in E1. injection E1 as <-.
  set (T := kept (block_marked c (mark_level_set c thr s)) (cnt s)) in *.
  destruct (tab s' k) as [i |] eqn:Et; [| congruence]. pose proof Et as Et'. apply S4 in Et'. destruct Et' as [Hi HK].
  assert (Hb : nth i T 0 < cnt s) by (apply (nth_In T 0) in Hi; apply in_kept in Hi; apply Hi).
  assert (Es : tab s k = Some (nth i T 0)) by (apply Hc; auto).
  unfold value. rewrite Et, Es. rewrite S5 by assumption. cbn [mark_level_set grid].
  destruct (Nat.ltb_spec (nth i T 0) (cnt s)) as [_ | L]; [| lia]. rewrite Nat.eqb_refl. destruct (Nat.ltb_spec ci (bsize c)) as [_ | L]; [| lia]. cbn [andb].
  pose proof (cell_mark_spec c thr (grid s (nth i T 0)) ci) as Hs.
  assert (H01 : cell_mark c thr (grid s (nth i T 0)) ci = 1%Z \/ cell_mark c thr (grid s (nth i T 0)) ci = 0%Z).
  { unfold cell_mark. destruct (existsb _ (props c)); auto. }
  split; [split |].
  - intros HH. injection HH as HH. assert (Hn : cell_mark c thr (grid s (nth i T 0)) ci <> 0%Z) by lia. apply Hs in Hn.
    destruct Hn as (p & chn & A & B & C). exists p, chn. eexists. split; [exact A |]. split; [exact B |]. split; [reflexivity | exact C].
  - intros (p & chn & x & A & B & C & D). injection C as <-. f_equal. destruct H01 as [-> | H0]; [reflexivity |].
    exfalso. apply (proj2 Hs); [exists p, chn; auto | exact H0].
  - destruct H01 as [-> | ->]; auto.
Qed.
Print Assumptions C105_marks.

(** Without any active value the table is emptied but the counter keeps its value: numBlocks()
    still reports the old blocks, none of which can be found. *)
Theorem C105_refit_refuted : forall c thr junk order1 order2 s,
  consistent s -> Permutation order1 (seq 0 (cnt s)) -> (forall n, Permutation (order2 n) (seq 0 n)) ->
  (forall k, ~ active_block c thr s k) -> 0 < cnt s ->
  exists s', refit c thr junk order1 order2 s = Some s' /\
    cnt s' = cnt s /\ (forall k, tab s' k = None) /\ ~ consistent s'.
Proof.
  intros c thr junk o1 o2 s Hc H1 H2 Hno Hpos.
  destruct (refit_spec c thr junk o1 o2 s Hc H1 H2) as (s' & E & _ & S2 & _ & S4 & _).
  set (T := kept (block_marked c (mark_level_set c thr s)) (cnt s)) in *.
  assert (HT : T = []).
  { destruct T as [| b T'] eqn:ET; [reflexivity |]. exfalso.
    assert (Hin : In b (kept (block_marked c (mark_level_set c thr s)) (cnt s))) by (fold T; rewrite ET; now left).
    apply in_kept in Hin. destruct Hin as [Hb Hm]. apply marked_active in Hm; [| exact Hc | exact Hb]. exact (Hno _ Hm). }
  rewrite HT in *. specialize (S2 eq_refl).
  assert (Hn : forall k, tab s' k = None).
  { intros k. destruct (tab s' k) as [i |] eqn:Et; [| reflexivity]. apply S4 in Et. cbn in Et. lia. }
  exists s'. split; [exact E |]. split; [exact S2 |]. split; [exact Hn |].
  intros Hcons. assert (Ht : tab s' (akeys s' 0) = Some 0) by (apply Hcons; split; [lia | reflexivity]).
  rewrite Hn in Ht. discriminate.
Qed.
Print Assumptions C105_refit_refuted.

(** extend_level_set_domain with n layers: the domain becomes the blocks within n blocks of the
    old domain, the old blocks keep number and values, the new ones hold zeros and, for the sdf,
    the background plus dx; in every order of the insertions. *)
Theorem C105_extend : forall c orders n s, consistent s ->
  (forall b m, Permutation (orders b m) (list_prod (seq b (m - b)) offs)) ->
  let s' := extend c orders n 0 s in
  consistent s' /\
  (forall k, tab s' k <> None <-> exists j, tab s j <> None /\ within_blocks (Z.of_nat n) j k) /\
  (forall k i, tab s k = Some i -> tab s' k = Some i /\ forall ch ci, value s' k ch ci = value s k ch ci) /\
  (forall k ch ci, tab s k = None -> tab s' k <> None -> ch < nchn c -> ci < bsize c ->
     value s' k ch ci = Some (if match sdf_chn c with Some sc => Nat.eqb ch sc | None => false end
                              then background c + dx c else 0)%Z).
Proof.
  intros c orders n s Hc Ho s'.
  destruct (extend_spec c orders s Ho n 0%Z 0 s) as (C & K & T & G & B); auto.
  - lia.
  - split; auto.
  - split; [lia |]. intros i o Hi. lia.
  - intros k. split.
    + intros H. destruct (tab s k) as [i |] eqn:E; [| congruence]. apply Hc in E. destruct E as [E1 E2].
      exists i. split; [exact E1 |]. rewrite E2. destruct k as [[x y] z]. exists 0%Z, 0%Z, 0%Z. split; [lia |]. f_equal; [f_equal |]; lia.
    + intros (i & Hi & a & b & d & Hab & H). assert (E : tab s (akeys s i) = Some i) by (apply Hc; auto).
      destruct (akeys s i) as [[x y] z]. assert (a = 0%Z) by lia. assert (b = 0%Z) by lia. assert (d = 0%Z) by lia. subst.
      replace (x + 8 * 0)%Z with x by lia. replace (y + 8 * 0)%Z with y by lia. replace (z + 8 * 0)%Z with z by lia. congruence.
  - intros i ch ci Hi. lia.
  - fold s' in C, K, T, G, B. split; [exact C |]. split; [| split].
    + intros k. rewrite T. replace (0 + Z.of_nat n)%Z with (Z.of_nat n) by lia. split.
      * intros (i & Hi & H). exists (akeys s i). split; [| exact H]. assert (tab s (akeys s i) = Some i) by (apply Hc; auto). congruence.
      * intros (j & Hj & H). destruct (tab s j) as [i |] eqn:E; [| congruence]. apply Hc in E. destruct E as [E1 <-]. exists i. auto.
    + intros k i E. pose proof E as E'. apply Hc in E. destruct E as [Hi HK].
      assert (Et : tab s' k = Some i) by (apply C; split; [destruct K; lia | rewrite (proj2 K) by exact Hi; exact HK]).
      split; [exact Et |]. intros ch ci. unfold value. rewrite Et, E'. f_equal. apply G. exact Hi.
    + intros k ch ci En Es Hch Hci. destruct (tab s' k) as [i |] eqn:E; [| congruence]. unfold value. rewrite E. f_equal.
      pose proof E as E'. apply C in E'. destruct E' as [Hi HK]. rewrite B; [destruct (sdf_chn c); reflexivity | | exact Hch | exact Hci].
      split; [| exact Hi]. destruct (le_lt_dec (cnt s) i) as [L | L]; [exact L |]. exfalso.
      rewrite (proj2 K) in HK by exact L. assert (tab s k = Some i) by (apply Hc; auto). congruence.
Qed.
Print Assumptions C105_extend.

(** The room reserved before each round, 26 blocks for every block added by the round before,
    suffices. *)
Theorem C105_room : forall c orders n s, consistent s ->
  (forall b m, Permutation (orders b m) (list_prod (seq b (m - b)) offs)) ->
  let blocks r := cnt (extend c orders r 0 s) in
  blocks 1 <= (blocks 0 - 0) * 26 + blocks 0 /\
  blocks (S (S n)) <= (blocks (S n) - blocks n) * 26 + blocks (S n).
Proof.
  intros c orders n s Hc Ho blocks. assert (R0 : ready 0 s) by (split; [lia | intros; lia]). split.
  - unfold blocks. cbn [extend]. apply (layer_room c _ 0 s Hc R0). apply Ho.
  - unfold blocks. rewrite extend_last. destruct (extend_ready c orders Ho n 0 s Hc R0) as [_ R].
    apply layer_room; [| exact R | apply Ho].
    destruct (extend_ready c orders Ho (S n) 0 s Hc R0) as [C _]. exact C.
Qed.
Print Assumptions C105_room.

(** ** Concrete cases *)

(** Three blocks with an sdf (channel 0), a velocity (channel 1) and the mark (channel 2), two
    cells each; the middle block is inactive. *)
Definition ex_c := Setup [Property Sdf 0 1; Property Other 1 1; Property Mark 2 1] 2 10 1 3 2.
Definition ex_keys : list key := [(0, 0, 0); (8, 0, 0); (0, 8, 0)]%Z.
Definition ex_tab (k : key) : option nat :=
  if key_eqb k (0, 0, 0)%Z then Some 0 else if key_eqb k (8, 0, 0)%Z then Some 1 else if key_eqb k (0, 8, 0)%Z then Some 2 else None.
Definition ex_grid (b ch ci : nat) : Z :=
  match b, ch with 0, 0 => 3%Z | 2, 1 => (-7)%Z | _, 0 => 20%Z | _, _ => 0%Z end.
Definition ex_s := Spls 3 (fun i => nth i ex_keys (0, 0, 0)%Z) ex_tab ex_grid.

Example C105_ex : consistent ex_s /\ active_block ex_c 0 ex_s (0, 8, 0)%Z /\
  match refit ex_c 0 (fun _ => 77) [2; 0; 1] (fun n => rev (seq 0 n)) ex_s with
  | Some s' => cnt s' = 2 /\ map (tab s') ex_keys = [Some 0; None; Some 1] /\
               value s' (0, 8, 0)%Z 1 1 = Some (-7)%Z /\ value s' (0, 8, 0)%Z 2 1 = Some 1%Z
  | None => False end.
Proof.
  split; [| split; [| repeat split; reflexivity]].
  - intros k i. unfold ex_s; cbn [tab cnt akeys]. unfold ex_tab.
    destruct (key_eqb k (0, 0, 0)%Z) eqn:E0; [apply key_eqb_eq in E0 | apply key_eqb_neq in E0];
    [| destruct (key_eqb k (8, 0, 0)%Z) eqn:E1; [apply key_eqb_eq in E1 | apply key_eqb_neq in E1];
       [| destruct (key_eqb k (0, 8, 0)%Z) eqn:E2; [apply key_eqb_eq in E2 | apply key_eqb_neq in E2]]];
    (split; [intros H; try discriminate; (injection H as <-; (split; [lia | cbn; congruence])) |
             intros [Hi H]; destruct i as [| [| [| i]]]; cbn in H; try lia; congruence]).
  - exists (Property Other 1 1), 0, 1, (-7)%Z. cbn. split; [auto |]. split; [lia |]. split; [lia |]. split; [reflexivity |].
    right. split; [reflexivity | cbn; lia].
Qed.

Example C105_ex_extend :
  let s' := extend ex_c (fun b m => list_prod (seq b (m - b)) offs) 2 0 ex_s in
  tab s' (16, -16, 8)%Z <> None /\ tab s' (32, 0, 0)%Z = None /\
  value s' (16, -16, 8)%Z 0 1 = Some 11%Z /\ value s' (16, -16, 8)%Z 1 1 = Some 0%Z.
Proof. vm_compute. repeat split; discriminate. Qed.
