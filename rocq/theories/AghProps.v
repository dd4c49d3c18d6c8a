(** C86: the hierarchy of AdaptiveGrid: complementTopo, reorder and the reads, for every level configuration, every dimension, all coordinates, every number
    of blocks, every order of the concurrent insertions and of the coarsest blocks. *)
From Verif Require Import Prelude AgridModel AghModel AghSpec AghProofs AghProofs2 AghProofs3 AghProofs4.
Open Scope nat_scope.

(** complementTopo succeeds; afterwards the blocks are exactly the former blocks and all blocks containing one *)
Theorem C86_blocks : forall T C dim V (zero : V) sortg sched top g, grid_ok T C dim V g -> orders_ok V sched top ->
  exists h, complement_topo T C dim V zero sortg sched top g = Some h /\ length h = length g /\ (forall i k, has_key V h i k <-> Blocks T C V g i k) /\
    (forall i l, lev V h i = Some l -> NoDup (keys V l)).
Proof.
  intros T C dim V zero sortg sched top g Hok Ho. pose proof (proj1 (proj2 Hok)) as K.
  destruct (whole T C dim (length g) V zero K g sched top sortg eq_refl Hok Ho) as (g1 & h & _ & A1 & A2 & A3 & A4 & A5 & A6 & A7 & A8). exists h. split; [exact A1|]. split; [exact A8|]. split.
  - intros i k. rewrite (kept_keys (length g) V g eq_refl _ _ _ A5). apply (g1_keys T C dim (length g) V zero K g sched eq_refl g1 A3 A4 A7).
  - intros i l E. exact (proj1 (proj1 (each_lev V _ _) (kept_keys_ok T C dim (length g) V g eq_refl _ _ _ A2 A5) i l E)).
Qed.
Print Assumptions C86_blocks.

(** and bit q of the child mask of a block is on exactly when there is a block at its q-th child position *)
Theorem C86_child_masks : forall T C dim V (zero : V) sortg sched top g h, grid_ok T C dim V g -> orders_ok V sched top -> complement_topo T C dim V zero sortg sched top g = Some h ->
  forall i l p k q d, lev V h (S i) = Some l -> nth_error (keys V l) p = Some k -> hierarchy_offset_to_coord T C dim (S i) (Z.of_nat q) = Some d -> q < hsz T C dim (S i) ->
  exists m b, nth_error (elts (cmask V l)) p = Some m /\ nth_error m q = Some b /\ (b = true <-> has_key V h i (vadd k d)).
Proof.
  intros T C dim V zero sortg sched top g h Hok Ho Hh i l p k q d El Ek Hd Hq. pose proof (proj1 (proj2 Hok)) as K.
  destruct (whole T C dim (length g) V zero K g sched top sortg eq_refl Hok Ho) as (g1 & h' & _ & A1 & A2 & A3 & A4 & A5 & A6 & A7 & A8). rewrite Hh in A1. injection A1 as <-.
  destruct (lev_some V h i) as [lc Ec]; [pose proof (lev_lt V _ _ _ El); lia|]. destruct (chain_lev V _ _ A6 i l lc El Ec) as (M & _). destruct (M p k Ek) as (m & M1 & _ & M3). destruct (M3 q d Hq Hd) as (b & B1 & B2).
  exists m, b. split; [exact M1|]. split; [exact B1|]. rewrite B2. split; [intro X; exists lc; auto|]. intros (l' & E' & X). rewrite Ec in E'. injection E' as <-. exact X.
Qed.
Print Assumptions C86_child_masks.

(** every former block keeps its values and its mask, every added block holds zeros and is inactive *)
Theorem C86_data : forall T C dim V (zero : V) sched top g h, grid_ok T C dim V g -> orders_ok V sched top -> complement_topo T C dim V zero true sched top g = Some h ->
  forall i k t m, stored V h i k t m <->
    stored V g i k t m \/ (Blocks T C V g i k /\ ~ has_key V g i k /\ t = repeat zero (tsz T dim i) /\ m = repeat false (tsz T dim i)).
Proof.
  intros T C dim V zero sched top g h Hok Ho Hh i k t m. pose proof (proj1 (proj2 Hok)) as K.
  destruct (whole T C dim (length g) V zero K g sched top true eq_refl Hok Ho) as (g1 & h' & _ & A1 & A2 & A3 & A4 & A5 & A6 & A7 & A8). rewrite Hh in A1. injection A1 as <-.
  rewrite (kept_stored T C dim (length g) V g eq_refl g1 h A2 A5 i k t m), (g1_stored T C dim (length g) V zero g sched eq_refl Hok g1 A2 A3 i k t m). rewrite (g1_keys T C dim (length g) V zero K g sched eq_refl g1 A3 A4 A7). tauto.
Qed.
Print Assumptions C86_data.

(** afterwards every read returns what the specification says, whether it follows the hash tables or the child offsets *)
Theorem C86_reads : forall T C dim V (zero bg : V) sched top g h, grid_ok T C dim V g -> orders_ok V sched top -> complement_topo T C dim V zero true sched top g = Some h ->
  forall c, length c = dim ->
  (exists v b, Reads T C V zero bg g c v b) /\
  forall v b, Reads T C V zero bg g c v b ->
    (forall ordered, probe T C V bg ordered h c None = Some (v, b)) /\ value T C V bg h c = Some v /\ forall d, value_or T C V bg h c d = Some (if b then v else d).
Proof.
  intros T C dim V zero bg sched top g h Hok Ho Hh c Hc. pose proof (proj1 (proj2 Hok)) as K.
  destruct (whole T C dim (length g) V zero K g sched top true eq_refl Hok Ho) as (g1 & h' & _ & A1 & A2 & A3 & A4 & A5 & A6 & A7 & A8). rewrite Hh in A1. injection A1 as <-.
  destruct (reads_whole T C dim (length g) V zero bg K g sched eq_refl Hok g1 h c A2 A3 A4 A5 A6 A7 A8 Hc) as (v & b & R & P). split; [eauto|]. intros v' b' R'.
  destruct (reads_unique T C dim (length g) V zero bg K g eq_refl Hok c _ _ _ _ R R') as [<- <-]. split; [exact P|]. unfold value, value_or. rewrite (P true). split; [reflexivity|]. intro d. destruct b; reflexivity.
Qed.
Print Assumptions C86_reads.

(** getValueLevel is the finest level with a block around the coordinate, the coarsest level where there is none *)
Theorem C86_level : forall T C dim V (zero : V) sortg sched top g h, grid_ok T C dim V g -> orders_ok V sched top -> complement_topo T C dim V zero sortg sched top g = Some h ->
  forall c ordered i, length c = dim -> finest T C V g c i \/ ((forall j, ~ Blocks T C V g j (coord_to_key T C j c)) /\ S i = length g) ->
  value_level T C V ordered h c None = Some i.
Proof.
  intros T C dim V zero sortg sched top g h Hok Ho Hh c ordered i Hc. pose proof (proj1 (proj2 Hok)) as K.
  destruct (whole T C dim (length g) V zero K g sched top sortg eq_refl Hok Ho) as (g1 & h' & _ & A1 & A2 & A3 & A4 & A5 & A6 & A7 & A8). rewrite Hh in A1. injection A1 as <-.
  exact (level_whole T C dim (length g) V zero zero K g sched sortg eq_refl Hok g1 h c A2 A3 A4 A5 A6 A7 A8 Hc ordered i).
Qed.
Print Assumptions C86_level.

(** where no active tile value lies above a finer block, the read that ignores the child masks finds the same values *)
Theorem C86_oblivious : forall T C dim V (zero bg : V) sched top g h, grid_ok T C dim V g -> orders_ok V sched top -> complement_topo T C dim V zero true sched top g = Some h ->
  forall c, length c = dim ->
  (forall i t m q, stored V g (S i) (coord_to_key T C (S i) c) t m -> coord_to_tile_offset T C (S i) c = Some (Z.of_nat q) -> nth_error m q = Some true ->
     ~ Blocks T C V g i (coord_to_key T C i c)) ->
  exists v v' on, probe T C V bg true h c None = Some (v, on) /\ oblivious T C V bg h c = Some (v', on) /\ (on = true -> v' = v).
Proof.
  intros T C dim V zero bg sched top g h Hok Ho Hh c Hc X. pose proof (proj1 (proj2 Hok)) as K.
  destruct (whole T C dim (length g) V zero K g sched top true eq_refl Hok Ho) as (g1 & h' & _ & A1 & A2 & A3 & A4 & A5 & A6 & A7 & A8). rewrite Hh in A1. injection A1 as <-.
  destruct (oblivious_fin T C dim (length g) V bg K h c) as (v & v' & on & P1 & P2 & P3).
  - lia.
  - pose proof (proj1 Hok). lia.
  - exact Hc.
  - exact (kept_keys_ok T C dim (length g) V g eq_refl _ _ _ A2 A5).
  - exact (kept_cells T C dim (length g) V g eq_refl g1 h A2 A5).
  - exact A6.
  - intros i l lc p m q El Ec Hp Hm Hq Ht Hin. pose proof (proj1 (each_lev V _ _) (kept_cells T C dim (length g) V g eq_refl g1 h A2 A5) _ _ El p _ Hp) as (t & m' & G1 & G2 & _). rewrite Hm in G2. injection G2 as <-.
    assert (St : stored V h (S i) (coord_to_key T C (S i) c) t m) by (exists l, p; auto). apply (kept_stored T C dim (length g) V g eq_refl g1 h A2 A5) in St. apply (g1_stored T C dim (length g) V zero g sched eq_refl Hok g1 A2 A3) in St.
    destruct (toff_ok T C dim (length g) K (S i) c ltac:(pose proof (lev_lt V _ _ _ El); lia) Hc) as (q' & Q1 & Q2 & _). rewrite Hq in Q1. injection Q1 as <-.
    destruct St as [St|(_ & _ & _ & ->)].
    + apply (X i t m q St Q2 Ht). apply (g1_keys T C dim (length g) V zero K g sched eq_refl g1 A3 A4 A7). apply (kept_keys (length g) V g eq_refl _ _ _ A5). exists lc. auto.
    + apply nth_error_In, repeat_spec in Ht. discriminate.
  - destruct (reads_whole T C dim (length g) V zero bg K g sched eq_refl Hok g1 h c A2 A3 A4 A5 A6 A7 A8 Hc) as (w & b & _ & P). rewrite (P false) in P1. injection P1 as -> ->. exists v, v', on. split; [apply P|auto].
Qed.
Print Assumptions C86_oblivious.

(** findings: concrete grids of three levels in one dimension; leaves of two voxels, level 1 of two cells of two voxels, level 2 of two cells of four voxels *)
Definition ag_cfg : list Z := [1%Z; 1%Z; 1%Z].
Definition in_order (i : nat) (l : list (list Z)) : list (list Z) := l.
Definition as_is (g : list (level Z)) : list nat := match g with l :: _ => seq 0 (length (keys Z l)) | [] => [] end.
Definition no_blocks : level Z := Level Z [] [] (MV [] 0) (MV [] 0) [].
Definition one_leaf (cp : nat) : level Z := Level Z [[0%Z]] [[1%Z; 2%Z]] (MV [[true; true]] cp) (MV [[false; false]] cp) [0].
Definition coarse : level Z := Level Z [[0%Z]] [[5%Z; 6%Z]] (MV [[true; true]] 1) (MV [[false; false]] 1) [0].
Lemma ag_cfg_ok : params_ok ag_cfg ag_cfg 1 3.
Proof.
  unfold params_ok, cfg_ok. split; [|split; [lia|split; [reflexivity|]]].
  - split; [reflexivity|]. intros i Hi. cbn in Hi. destruct i as [|[|[|i]]]; [| | |lia]; vm_compute; intuition discriminate.
  - intros i Hi. destruct i as [|[|[|i]]]; [| | |lia]; vm_compute; intuition discriminate.
Qed.
Lemma orders_fine : orders_ok Z in_order as_is.
Proof. split; [intros; apply Permutation_refl|]. intros l r. apply Permutation_refl. Qed.
Lemma leaf_fine cp : 1 <= cp -> level_ok ag_cfg ag_cfg 1 Z 0 (one_leaf cp).
Proof. intro H. unfold level_ok. cbn. repeat (split; [try (repeat constructor; cbn; tauto)|]); try lia. Qed.
Lemma none_fine i : level_ok ag_cfg ag_cfg 1 Z i no_blocks.
Proof. unfold level_ok. cbn. repeat (split; [constructor|]); constructor. Qed.
Lemma coarse_fine : level_ok ag_cfg ag_cfg 1 Z 2 coarse.
Proof. unfold level_ok. cbn. repeat (split; [try (repeat constructor; cbn; tauto)|]); try lia. Qed.
Lemma grid3_ok l2 l1 l0 : level_ok ag_cfg ag_cfg 1 Z 2 l2 -> level_ok ag_cfg ag_cfg 1 Z 1 l1 -> level_ok ag_cfg ag_cfg 1 Z 0 l0 -> grid_ok ag_cfg ag_cfg 1 Z [l2; l1; l0].
Proof.
  intros A B D. split; [cbn; lia|]. split; [exact ag_cfg_ok|]. intros i l E. unfold lev in E. cbn in E.
  destruct i as [|[|[|i]]]; cbn in E; [injection E as <-; assumption..|destruct i; discriminate].
Qed.

(** a coordinate no block ever covered can read 0 instead of the background *)
Theorem C86_background_refuted : exists g h c, grid_ok ag_cfg ag_cfg 1 Z g /\ complement_topo ag_cfg ag_cfg 1 Z 0%Z true in_order as_is g = Some h /\ length c = 1 /\
  (forall i, ~ has_key Z g i (coord_to_key ag_cfg ag_cfg i c)) /\ value ag_cfg ag_cfg Z 9%Z h c = Some 0%Z.
Proof.
  eexists [no_blocks; no_blocks; one_leaf 1], _, [2%Z]. split; [apply grid3_ok; [apply none_fine|apply none_fine|apply leaf_fine; lia]|]. split; [vm_compute; reflexivity|]. split; [reflexivity|]. split; [|vm_compute; reflexivity].
  intros i (l & E & H). unfold lev in E. cbn in E. destruct i as [|[|[|i]]]; cbn in E; [| | |destruct i; discriminate]; injection E as <-; vm_compute in H; intuition discriminate.
Qed.
Print Assumptions C86_background_refuted.

(** an active tile value with no finer block at its coordinate becomes unreadable: the level added in between hides it *)
Theorem C86_active_hidden_refuted : exists g h c t m, grid_ok ag_cfg ag_cfg 1 Z g /\ complement_topo ag_cfg ag_cfg 1 Z 0%Z true in_order as_is g = Some h /\ length c = 1 /\
  stored Z g 2 (coord_to_key ag_cfg ag_cfg 2 c) t m /\ coord_to_tile_offset ag_cfg ag_cfg 2 c = Some 0%Z /\ nth_error t 0 = Some 5%Z /\ nth_error m 0 = Some true /\
  (forall i, i < 2 -> ~ has_key Z g i (coord_to_key ag_cfg ag_cfg i c)) /\ probe ag_cfg ag_cfg Z 9%Z true h c None = Some (0%Z, false).
Proof.
  eexists [coarse; no_blocks; one_leaf 1], _, [2%Z], [5%Z; 6%Z], [true; true]. split; [apply grid3_ok; [apply coarse_fine|apply none_fine|apply leaf_fine; lia]|]. split; [vm_compute; reflexivity|]. split; [reflexivity|].
  split; [exists coarse, 0; vm_compute; auto|]. split; [vm_compute; reflexivity|]. split; [reflexivity|]. split; [reflexivity|]. split; [|vm_compute; reflexivity].
  intros i Hi (l & E & H). unfold lev in E. cbn in E. destruct i as [|[|i]]; [| |lia]; cbn in E; injection E as <-; vm_compute in H; intuition discriminate.
Qed.
Print Assumptions C86_active_hidden_refuted.

(** calling complementTopo a second time can throw: Vector::reorder leaves a vector with as many elements as its capacity *)
Theorem C86_twice_refuted : exists g h, grid_ok ag_cfg ag_cfg 1 Z g /\ complement_topo ag_cfg ag_cfg 1 Z 0%Z true in_order as_is g = Some h /\
  complement_topo ag_cfg ag_cfg 1 Z 0%Z true in_order as_is h = None.
Proof.
  eexists [no_blocks; no_blocks; one_leaf 2], _. split; [apply grid3_ok; [apply none_fine|apply none_fine|apply leaf_fine; lia]|]. split; [vm_compute; reflexivity|]. vm_compute. reflexivity.
Qed.
Print Assumptions C86_twice_refuted.

(** without reordering of the grid data (SortGridData = false) a block can end up with the values of another one *)
Theorem C86_unsorted_refuted : exists g h c, grid_ok ag_cfg ag_cfg 1 Z g /\ complement_topo ag_cfg ag_cfg 1 Z 0%Z false in_order as_is g = Some h /\
  (exists t m, stored Z g 0 (coord_to_key ag_cfg ag_cfg 0 c) t m /\ nth_error t 0 = Some 3%Z) /\ coord_to_tile_offset ag_cfg ag_cfg 0 c = Some 0%Z /\
  value ag_cfg ag_cfg Z 9%Z h c = Some 1%Z.
Proof.
  set (two := Level Z [[2%Z]; [0%Z]] [[1%Z; 2%Z]; [3%Z; 4%Z]] (MV [[true; true]; [true; true]] 2) (MV [[false; false]; [false; false]] 2) [0; 0]).
  eexists [no_blocks; no_blocks; two], _, [0%Z]. split; [apply grid3_ok; [apply none_fine|apply none_fine|]|].
  { unfold level_ok. cbn. repeat (split; [try (repeat constructor; cbn; intuition discriminate)|]); try lia. }
  split; [vm_compute; reflexivity|]. split; [exists [3%Z; 4%Z], [true; true]; split; [exists two, 1; vm_compute; auto|reflexivity]|]. split; vm_compute; reflexivity.
Qed.
Print Assumptions C86_unsorted_refuted.

(** a case: two leaves under different parents and an own coarse block; reads of a leaf voxel, of an added cell, of a coarse cell and of the background *)
Definition two_leaves : level Z := Level Z [[6%Z]; [0%Z]] [[1%Z; 2%Z]; [3%Z; 4%Z]] (MV [[true; false]; [true; true]] 2) (MV [[false; false]; [false; false]] 3) [0; 0; 0].
Example C86_ex : grid_ok ag_cfg ag_cfg 1 Z [coarse; no_blocks; two_leaves] /\ orders_ok Z in_order as_is /\
  exists h, complement_topo ag_cfg ag_cfg 1 Z 0%Z true in_order as_is [coarse; no_blocks; two_leaves] = Some h /\
    map (fun x => probe ag_cfg ag_cfg Z 9%Z true h [x] None) [0%Z; 1%Z; 2%Z; 6%Z; 7%Z; 8%Z; (-1)%Z] =
      [Some (3%Z, true); Some (4%Z, true); Some (0%Z, false); Some (1%Z, true); Some (2%Z, false); Some (9%Z, false); Some (9%Z, false)] /\
    map (fun x => value_level ag_cfg ag_cfg Z true h [x] None) [0%Z; 2%Z; 8%Z] = [Some 0; Some 1; Some 2].
Proof.
  split; [apply grid3_ok; [apply coarse_fine|apply none_fine|]|].
  { unfold level_ok. cbn. repeat (split; [try (repeat constructor; cbn; intuition discriminate)|]); try lia. }
  split; [exact orders_fine|]. eexists. split; [vm_compute; reflexivity|]. split; vm_compute; reflexivity.
Qed.
(** the hypothesis of C86_oblivious holds for a grid without coarse active values *)
Example C86_ex_oblivious : grid_ok ag_cfg ag_cfg 1 Z [no_blocks; no_blocks; one_leaf 1] /\ forall i t m q c,
  stored Z [no_blocks; no_blocks; one_leaf 1] (S i) (coord_to_key ag_cfg ag_cfg (S i) c) t m -> coord_to_tile_offset ag_cfg ag_cfg (S i) c = Some (Z.of_nat q) -> nth_error m q = Some true ->
  ~ Blocks ag_cfg ag_cfg Z [no_blocks; no_blocks; one_leaf 1] i (coord_to_key ag_cfg ag_cfg i c).
Proof.
  split; [apply grid3_ok; [apply none_fine|apply none_fine|apply leaf_fine; lia]|]. intros i t m q c (l & p & E & Hk & _). exfalso. unfold lev in E. cbn in E.
  destruct i as [|[|i]]; cbn in E; [| |destruct i; discriminate]; injection E as <-; destruct p; discriminate.
Qed.
