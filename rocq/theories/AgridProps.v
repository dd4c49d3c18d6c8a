(** C50: coordinate codecs of AdaptiveGrid, for every level configuration accepted by the static_asserts whose masks and offsets fit in an
    int ([small]: end bit <= 30, bits per tile or node * dim <= 31), every dimension, and all coordinates, negative ones included. *)
From Verif Require Import Prelude AgridModel AgridSpec AgridProofs.
Open Scope Z_scope.

(** offset -> coordinate -> offset *)
Theorem C50_tile_offset_roundtrip : forall T C dim i off, cfg_ok T C -> (i < length T)%nat -> (0 < dim)%nat -> small T C dim i (tile_bits T i) ->
  0 <= off < 2 ^ (tile_bits T i * Z.of_nat dim) ->
  exists c, tile_offset_to_coord T C dim i off = Some c /\ length c = dim /\ coord_to_tile_offset T C i c = Some off /\
    Forall (fun y => exists k, y = k * 2 ^ sbit T C i /\ 0 <= y < 2 ^ ebit T C i) c.
Proof. exact tile_enc_dec. Qed.
Print Assumptions C50_tile_offset_roundtrip.
(** coordinate -> offset -> origin of the cell of that coordinate, relative to its block; offsets are row-major *)
Theorem C50_tile_coord_roundtrip : forall T C i c, cfg_ok T C -> (i < length T)%nat -> c <> [] -> small T C (length c) i (tile_bits T i) ->
  exists off o, coord_to_tile_offset T C i c = Some off /\ 0 <= off < 2 ^ (tile_bits T i * Z.of_nat (length c)) /\
    tile_offset_to_coord T C (length c) i off = Some o /\ off = row_major (2 ^ tile_bits T i) (map (fun y => y / 2 ^ sbit T C i) o) /\
    Forall2 (fun x y => floor_to (2 ^ sbit T C i) (x mod 2 ^ ebit T C i) y) c o.
Proof. exact tile_dec_enc. Qed.
Print Assumptions C50_tile_coord_roundtrip.
Theorem C50_hierarchy_offset_roundtrip : forall T C dim i off, cfg_ok T C -> (i < length T)%nat -> (0 < dim)%nat -> small T C dim i (hierarchy_bits T C i) ->
  0 <= off < 2 ^ (hierarchy_bits T C i * Z.of_nat dim) ->
  exists c, hierarchy_offset_to_coord T C dim i off = Some c /\ length c = dim /\ coord_to_hierarchy_offset T C i c = Some off /\
    Forall (fun y => exists k, y = k * 2 ^ end_prev T C i /\ 0 <= y < 2 ^ ebit T C i) c.
Proof. exact hier_enc_dec. Qed.
Print Assumptions C50_hierarchy_offset_roundtrip.
Theorem C50_hierarchy_coord_roundtrip : forall T C i c, cfg_ok T C -> (i < length T)%nat -> c <> [] -> small T C (length c) i (hierarchy_bits T C i) ->
  exists off o, coord_to_hierarchy_offset T C i c = Some off /\ 0 <= off < 2 ^ (hierarchy_bits T C i * Z.of_nat (length c)) /\
    hierarchy_offset_to_coord T C (length c) i off = Some o /\ off = row_major (2 ^ hierarchy_bits T C i) (map (fun y => y / 2 ^ end_prev T C i) o) /\
    Forall2 (fun x y => floor_to (2 ^ end_prev T C i) (x mod 2 ^ ebit T C i) y) c o.
Proof. exact hier_dec_enc. Qed.
Print Assumptions C50_hierarchy_coord_roundtrip.
(** the key is the block origin: the largest multiple of 2^ebit below each component *)
Theorem C50_key_is_block_origin : forall T C i c, cfg_ok T C -> (i < length T)%nat -> Forall2 (fun x k => floor_to (2 ^ ebit T C i) x k) c (coord_to_key T C i c).
Proof. exact key_floor'. Qed.
Print Assumptions C50_key_is_block_origin.
(** key, tile offset and sub-cell remainder determine the coordinate *)
Theorem C50_coordinate_determined : forall T C i c c', cfg_ok T C -> (i < length T)%nat -> c <> [] -> length c' = length c -> small T C (length c) i (tile_bits T i) ->
  coord_to_key T C i c = coord_to_key T C i c' -> coord_to_tile_offset T C i c = coord_to_tile_offset T C i c' ->
  Forall2 (fun x y => x mod 2 ^ sbit T C i = y mod 2 ^ sbit T C i) c c' -> c = c'.
Proof. exact coord_split. Qed.
Print Assumptions C50_coordinate_determined.
(** the hierarchy offset names the child block within its parent: same child block iff same parent block and same hierarchy offset *)
Theorem C50_child_block_determined : forall T C i c c', cfg_ok T C -> (S i < length T)%nat -> c <> [] -> length c' = length c -> small T C (length c) (S i) (hierarchy_bits T C (S i)) ->
  (coord_to_key T C i c = coord_to_key T C i c' <->
   coord_to_key T C (S i) c = coord_to_key T C (S i) c' /\ coord_to_hierarchy_offset T C (S i) c = coord_to_hierarchy_offset T C (S i) c').
Proof. exact child_key. Qed.
Print Assumptions C50_child_block_determined.
Theorem C50_leaf_cell_determined : forall T C c c', cfg_ok T C -> (0 < length T)%nat -> c <> [] -> length c' = length c -> small T C (length c) 0 (hierarchy_bits T C 0) ->
  (c = c' <-> coord_to_key T C 0 c = coord_to_key T C 0 c' /\ coord_to_hierarchy_offset T C 0 c = coord_to_hierarchy_offset T C 0 c').
Proof. exact leaf_key. Qed.
Print Assumptions C50_leaf_cell_determined.
(** blocks nest, and the cell size of level i is the product of the scalings below it *)
Theorem C50_blocks_nest : forall T C i j c, cfg_ok T C -> (i <= j < length T)%nat -> coord_to_key T C j (coord_to_key T C i c) = coord_to_key T C j c.
Proof. exact key_nest. Qed.
Print Assumptions C50_blocks_nest.
Theorem C50_cell_size : forall T C i, cfg_ok T C -> (i < length T)%nat -> sbit T C i = fold_right Z.add 0 (firstn i C).
Proof. exact sbit_lower. Qed.
Print Assumptions C50_cell_size.

(** the default configuration <3,4,5>/<3,4,5>, and one whose tiles are larger than one branching step *)
Example C50_case : cfg_ok [3; 4; 5] [3; 4; 5] /\ small [3; 4; 5] [3; 4; 5] 3 2 5 /\ cfg_ok [3; 4; 4] [1; 2; 3] /\
  tile_bits [3; 4; 4] 1 = 4 /\ sbit [3; 4; 4] [1; 2; 3] 1 = 1 /\ end_prev [3; 4; 4] [1; 2; 3] 1 = 3 /\ hierarchy_bits [3; 4; 4] [1; 2; 3] 1 = 2 /\
  coord_to_tile_offset [3; 4; 4] [1; 2; 3] 1 [-1; 5] = Some 242 /\ coord_to_key [3; 4; 4] [1; 2; 3] 1 [-1; 5] = [-32; 0] /\
  tile_offset_to_coord [3; 4; 4] [1; 2; 3] 2 1 242 = Some [30; 4] /\ coord_to_hierarchy_offset [3; 4; 4] [1; 2; 3] 1 [-1; 9] = Some 13.
Proof.
  repeat split; try (vm_compute; congruence).
  all: destruct i as [|[|[|i]]]; try (vm_compute; congruence); cbn in H; lia.
Qed.
