(** * Reading and sampling a SparseLevelSet
    (include/zensim/geometry/SparseLevelSet.hpp 461-711, 843-873, 896-949).

    Numbers are exact rationals, coordinates unbounded, a vec is a list with one entry per
    dimension, as in [KernModel], whose weights and sample loop are used here.  The transformation
    between world and index space is left out: positions are index-space positions. *)

From Coq Require Import QArith Qround List Arith.
From Verif Require Import KernModel.
Import ListNotations.
Open Scope Q_scope.

(** The table and the grid: block number of a block coordinate, value by channel, block and cell. *)
Record levelset := Ls { query : list Z -> option nat; grid : nat -> nat -> Z -> Q }.

(** coord_to_cellid of grid_traits (Structure.hpp 319-331), side_length 8: the view of the grid is a
    GridView (1135-1140). *)
Definition coord_to_cellid (c : list Z) : Z := fold_left (fun ret x => Z.lor (Z.shiftl ret 3) x) c 0%Z.
(** decompose_coord (SparseLevelSet.hpp 461-468). *)
Definition decompose_coord (l : levelset) (c : list Z) : option nat * Z :=
  let cellid := map (fun x => Z.land x 7) c in
  let blockid := map (fun p => (fst p - snd p)%Z) (combine c cellid) in
  (query l blockid, coord_to_cellid cellid).
(** value_or at a coordinate (SparseLevelSet.hpp 482-493). *)
Definition value_or (l : levelset) (chn : nat) (c : list Z) (dflt : Q) : Q :=
  match decompose_coord l c with (None, _) => dflt | (Some b, cno) => grid l chn b cno end.
(** value_or of a face (SparseLevelSet.hpp 469-481): faces dim to dim + dim - 1 belong to the
    neighbour cell. *)
Definition bump (i : nat) (k : Z) (c : list Z) : list Z :=
  map (fun p => if Nat.eqb (fst p) i then (snd p + k)%Z else snd p) (combine (seq 0 (length c)) c).
Definition value_or_face (l : levelset) (chn : nat) (c : list Z) (orientation : nat) (dflt : Q) : Q :=
  let dim := length c in
  let f := Nat.modulo orientation (dim + dim) in
  value_or l chn (if Nat.leb dim f then bump (f - dim) 1 c else c) dflt.

(** The offset of the faces of orientation f (SparseLevelSet.hpp 864). *)
Definition delta (f d : nat) : Q := if Nat.eqb d f then 0 else 1#2.

(** LevelSetArena, staggered, in index space (SparseLevelSet.hpp 858-873). *)
Definition arena_face (sq : Q -> Q) (kt : kernel) (X : list Q) (f : nat) : arena :=
  let ds := map (delta f) (seq 0 (length X)) in
  let corner := map (fun xd => base_node (lerp_degree kt) (fst xd - snd xd)) (combine X ds) in
  let loc := map (fun xcd => fst xcd - (inject_Z (fst (snd xcd)) + snd (snd xcd))) (combine X (combine corner ds)) in
  mkArena (map (row_of sq kt) loc) loc corner.

(** LevelSetArena::isample (SparseLevelSet.hpp 939-949, arena 896-905) on a collocated or cell-centred level set
    (constructor 843-857) and on the faces of orientation f of a staggered one. *)
Definition sample_node (sq : Q -> Q) (kt : kernel) (l : levelset) (chn : nat) (X : list Q) (dflt : Q) : Q :=
  isample kt (arena_collocated sq kt X) (fun z => value_or l chn z dflt).
Definition sample_face (sq : Q -> Q) (kt : kernel) (l : levelset) (chn f : nat) (X : list Q) (dflt : Q) : Q :=
  isample kt (arena_face sq kt X f) (fun z => value_or l chn z dflt).

(** ipack of a staggered property at an index-space position (SparseLevelSet.hpp 524-556, the #else branch):
    component d from the faces of orientation d. *)
Definition ipack (sq : Q -> Q) (l : levelset) (off : nat) (X : list Q) (dflt : Q) : list Q :=
  map (fun d => sample_face sq Linear l (off + d) d X dflt) (seq 0 (length X)).

(** ipack at the centre of face f of a cell (SparseLevelSet.hpp 557-588). *)
Definition ipack_face (l : levelset) (off : nat) (c : list Z) (f : nat) (dflt : Q) : list Q :=
  map (fun d =>
    if Nat.eqb d f then value_or l (off + d) c dflt
    else (value_or l (off + d) c dflt + value_or l (off + d) (bump d 1 c) dflt
          + value_or l (off + d) (bump f (-1) c) dflt + value_or l (off + d) (bump d 1 (bump f (-1) c)) dflt) * (1#4))
    (seq 0 (length c)).

(** isample of a channel of a staggered level set (SparseLevelSet.hpp 663-696, the #else branch): the orientation is
    the number of the channel modulo the dimension. *)
Definition isample_channel (sq : Q -> Q) (l : levelset) (chn : nat) (X : list Q) (dflt : Q) : Q :=
  sample_face sq Linear l chn (Nat.modulo chn (length X)) X dflt.
(** isample of component chn of a property with offset off and the given size (697-711). *)
Definition isample_prop (sq : Q -> Q) (l : levelset) (off size chn : nat) (X : list Q) (dflt : Q) : Q :=
  if Nat.leb size chn then dflt else isample_channel sq l (off + chn) X dflt.
