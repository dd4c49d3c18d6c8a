(** C33: construction of the linear BVH. *)
From Verif Require Import Prelude BvhModel BvhSpec BvhBits BvhTopo BvhTree BvhFacts BvhBuild BvhBuild2.
From Coq Require Import Sorted.
Open Scope Z_scope.

Lemma sorted_cf mcs : Sorted Z.le mcs -> forall i j, 0 <= i -> i <= j -> j < BvhModel.n mcs -> cf mcs i <= cf mcs j.
Proof.
  intro H. apply Sorted_StronglySorted in H; [|intros x y z; lia]. unfold cf, BvhModel.n.
  assert (X : forall l, StronglySorted Z.le l -> forall a b, (a <= b)%nat -> (b < length l)%nat -> nth a l 0 <= nth b l 0).
  { clear. induction l as [|x l IH]; intros S' a b Hab Hb; [cbn in Hb; lia|]. inversion S' as [|? ? S2 F]; subst. destruct a as [|a]; destruct b as [|b]; cbn [nth length] in *; try lia.
    - rewrite Forall_forall in F. apply F. apply nth_In. lia.
    - apply IH; auto; lia. }
  intros i j A B C. apply X; auto; lia.
Qed.
(** whether or not the policy runs the iterations in order, the five loops finish without touching an element outside an array or one not
    yet written, and leave a full binary tree over the sorted primitives laid out in pre-order *)
Theorem C33_build_lays_out_tree_in_preorder mcs inds o1 o2 o3 o4 o5 :
  (2 < length mcs)%nat -> length inds = length mcs -> Sorted Z.le mcs -> (forall c, In c mcs -> 0 <= c < 2 ^ 32) ->
  Permutation o1 (zr 0 (n mcs)) -> Permutation o2 (zr 0 (n mcs - 1)) -> Permutation o3 (zr 0 (n mcs)) -> Permutation o4 (zr 0 (n mcs)) -> Permutation o5 (zr 0 (n mcs - 1)) ->
  exists m t, build mcs inds o1 o2 o3 o4 o5 empty = Some (tt, m) /\ prims t = inds /\
    (forall k l a p, nth_error (stored t 0 (-1) (-1)) k = Some (l, a, p) -> m Levels (Z.of_nat k) = Some l /\ m Aux (Z.of_nat k) = Some a /\ m Parents (Z.of_nat k) = Some p) /\
    (forall k, (k < length mcs)%nat -> m LInds (Z.of_nat k) = nth_error (leaf_nodes t 0) k).
Proof.
  intros Hn Hl Hs Hr Q1 Q2 Q3 Q4 Q5. assert (big : 1 < n mcs) by (unfold n; lia).
  assert (rng : forall i, 0 <= i < n mcs -> 0 <= cf mcs i < 2 ^ 32) by (intros i Hi; apply Hr; unfold cf; apply nth_In; unfold n in Hi; lia).
  pose proof (sorted_cf mcs Hs) as srt. destruct (shape_exists mcs _ false 0 (n mcs - 1) eq_refl (ctx_root mcs big)) as [T sh].
  pose proof (build_ok mcs inds big rng srt Hl T sh o1 o2 o3 o4 o5 Q1 Q2 Q3 Q4 Q5) as R. unfold runs in R. destruct (build mcs inds o1 o2 o3 o4 o5 empty) as [[[] m]|]; [|destruct R].
  exists m, (conv inds T). split; [reflexivity|]. split; [|split].
  - clear R. rewrite (conv_prims mcs inds Hl _ _ _ _ sh). replace (n mcs - 1 + 1) with (Z.of_nat (length inds)) by (rewrite Hl; unfold n; lia). clear. unfold zr. rewrite Z.sub_0_r, Nat2Z.id, map_map.
    apply nth_error_ext. intro k. destruct (lt_dec k (length inds)) as [L|L].
    + rewrite nth_error_map. rewrite (nth_error_nth' _ 0%nat) by (rewrite seq_length; exact L). cbn [option_map]. rewrite seq_nth by exact L. rewrite (nth_error_nth' inds 0 L). do 2 f_equal. lia.
    + rewrite (proj2 (nth_error_None _ _)), (proj2 (nth_error_None _ _)); [reflexivity|lia|rewrite map_length, seq_length; lia].
  - intros k l a p E. rewrite (conv_stored inds T false 0 (n mcs - 1) 0 (-1) (-1) [] (-1)) in E. rewrite nth_error_map in E. destruct (nth_error (all T false 0 (n mcs - 1) 0 (-1) (-1) [] (-1)) k) as [b|] eqn:Eb; [|discriminate]. cbn [option_map] in E. unfold view in E. injection E as El Ea Ep.
    assert (Hb : In b (L mcs T)) by (eapply nth_error_In; exact Eb).
    assert (EB : nB b = Z.of_nat k).
    { pose proof (map_nth_error nB k _ Eb) as X. rewrite all_pos in X. unfold zr in X. rewrite nth_error_map in X. destruct (nth_error (seq 0 _) k) as [q|] eqn:Eq; [|discriminate]. cbn in X. injection X as <-.
      pose proof (nth_error_some_lt _ _ _ Eq) as Lq. rewrite (nth_error_nth' _ 0%nat Lq) in Eq. injection Eq as <-. rewrite seq_length in Lq. rewrite seq_nth by exact Lq. lia. }
    destruct (R b Hb) as (A1 & A2 & A3 & A4). rewrite EB in *. rewrite El in A1. rewrite Ep in A2. split; [exact A1|]. split; [|exact A2]. pose proof (L_in mcs T sh b Hb) as (_ & R1 & R2 & R3 & _).
    destruct (Z.eq_dec (ni b) (nj b)) as [e|e].
    + destruct (A4 e) as [A5 _]. rewrite A5. rewrite (L_leaf mcs T sh b Hb e) in Ea. unfold at_. replace (ni b <? 0) with false by lia. rewrite (nth_error_nth' inds 0) by (rewrite Hl; unfold n in R3; lia). congruence.
    + rewrite (A3 ltac:(lia)). destruct (L_trunk mcs T sh b Hb ltac:(lia)) as (g & lt & rt & Et & _). rewrite Et in Ea. congruence.
  - intros k Hk. destruct (conv_leaves mcs inds Hl _ _ _ _ sh 0 (-1) (-1) [] (-1)) as [C1 C2]. rewrite C1. rewrite nth_error_map. replace (n mcs - 1 + 1) with (n mcs) in C2 by lia.
    set (F := filter _ _) in *. assert (X : nth_error (map ni F) k = Some (Z.of_nat k)).
    { rewrite <- C2. unfold zr. rewrite nth_error_map, (nth_error_nth' _ 0%nat) by (rewrite seq_length; unfold n; lia). cbn [option_map]. rewrite seq_nth by (unfold n; lia). reflexivity. }
    rewrite nth_error_map in X. destruct (nth_error F k) as [b|] eqn:Eb; [|discriminate]. cbn [option_map] in X |- *. injection X as X. apply nth_error_In in Eb. unfold F in Eb. apply filter_In in Eb. destruct Eb as [Hb Lb]. apply Z.eqb_eq in Lb.
    destruct (R b Hb) as (_ & _ & _ & A4). destruct (A4 Lb) as [_ A5]. rewrite <- X. exact A5.
Qed.
Print Assumptions C33_build_lays_out_tree_in_preorder.
(** seven codes with runs of equal ones, loops in different orders *)
Example ex33 : exists m t, build [1;1;1;2;5;5;7] [4;0;6;2;1;5;3] [6;5;4;3;2;1;0] [0;5;1;4;2;3] [3;0;1;2;6;5;4] [0;1;2;3;4;5;6] [5;4;3;2;1;0] empty = Some (tt, m) /\
  t = Node (Node (Node (Leaf 4) (Node (Leaf 0) (Leaf 6))) (Leaf 2)) (Node (Node (Leaf 1) (Leaf 5)) (Leaf 3)) /\
  map (fun k => (m Levels k, m Aux k, m Parents k)) (zr 0 13) = map (fun x => let '(l, a, p) := x in (Some l, Some a, Some p)) (stored t 0 (-1) (-1)).
Proof. eexists. eexists. split; [vm_compute; reflexivity|]. split; [reflexivity|]. vm_compute. reflexivity. Qed.
