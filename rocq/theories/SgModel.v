(** Model of geometry/SparseGrid.hpp (SparseGridView) and of the one-level
    AdaptiveGridAccessor of math/curve/InterpolationKernel.hpp.

    A coordinate (vec<int, dim>) is a list of integers with one entry per
    dimension; [k] is log2(side_length) (static_assert of lines 36-38: the side
    length is a power of two).
    SIMPLIFICATIONS: integer coordinates are unbounded; positions are exact
    rationals; worldToIndex is a parameter [w2i]; the block table is the list of
    its active keys in order of their indices (that bht realises such a table
    under concurrent insertion is C27/C28; capacity failures are excluded); a
    property name is already resolved to its channel offset (C11). *)
From Coq Require Import QArith Qround.
From Verif Require Import Prelude.
Open Scope Z_scope.

Section G.
Variable V : Type.
Variable W : Type.
Variable w2i : W -> list Q.
Variable k : Z.
Variable dim : nat.

(** vec<int, dim> by component, as used by geometry/SparseGrid.hpp *)
Definition coordT := list Z.
(** lines 36-39: side_length, block_size *)
Definition side : Z := 2 ^ k.
Definition block_size : Z := side ^ Z.of_nat dim.

(** table, tiles (a TileVector whose lane width is block_size), channels and
    background value: members _table, _grid, _background (lines 912-915 of the view) *)
Record grid := mkG { gkeys : list coordT; gbuf : list V; gnch : Z; gbg : V }.

(** bht sentinel_v *)
Definition sentinel_v : Z := -1.
Fixpoint coord_eqb (a b : coordT) : bool :=
  match a, b with
  | [], [] => true
  | x :: a', y :: b' => (x =? y) && coord_eqb a' b'
  | _, _ => false
  end.
Fixpoint find_key (l : list coordT) (c : coordT) (i : Z) : Z :=
  match l with [] => sentinel_v | x :: r => if coord_eqb x c then i else find_key r c (i + 1) end.
(** _table.query: the index of an active key, sentinel_v for another (C28) *)
Definition table_query (g : grid) (c : coordT) : Z := find_key (gkeys g) c 0.
(** _table.insert: a new key gets the next index, a present key gives sentinel_v (C27) *)
Definition table_insert (g : grid) (c : coordT) : Z * grid :=
  if table_query g c =? sentinel_v
  then (Z.of_nat (length (gkeys g)), mkG (gkeys g ++ [c]) (gbuf g) (gnch g) (gbg g))
  else (sentinel_v, g).

(** lines 266-271 local_offset_to_coord: d from dim-1 down to 0 *)
Fixpoint offset_digits (d : nat) (offset : Z) (ret : coordT) : coordT :=
  match d with
  | O => ret
  | S d' => offset_digits d' (Z.quot offset side) (Z.rem offset side :: ret)
  end.
Definition local_offset_to_coord (offset : Z) : coordT := offset_digits dim offset [].
(** lines 277-283 local_coord_to_offset *)
Definition local_coord_to_offset (c : coordT) : Z :=
  match c with
  | [] => 0
  | c0 :: r => fold_left (fun ret cd => ret * side + cd) r c0
  end.

(** lines 305-309 decomposeCoord; & of signed integers in two's complement *)
Definition cellid (X : coordT) : coordT := map (fun x => Z.land x (side - 1)) X.
Definition vsub (a b : coordT) : coordT := map (fun p => fst p - snd p) (combine a b).
Definition vadd (a b : coordT) : coordT := map (fun p => fst p + snd p) (combine a b).
Definition decomposeCoord (g : grid) (X : coordT) : Z * Z :=
  let c := cellid X in
  let blockid := vsub X c in
  (table_query g blockid, local_coord_to_offset c).

(** _grid(chn, blockno, cellno): the tile view's address (TileVector.hpp 759,
    875-876; TileModel.tile_addr); None outside the buffer *)
Definition tile_addr (g : grid) (chn bno cno : Z) : Z := bno * block_size * gnch g + (chn * block_size + cno).
Definition at_ {A} (l : list A) (a : Z) : option A := if a <? 0 then None else nth_error l (Z.to_nat a).
Definition tile_read (g : grid) (chn bno cno : Z) : option V := at_ (gbuf g) (tile_addr g chn bno cno).
Definition tile_write (g : grid) (chn bno cno : Z) (v : V) : option grid :=
  let a := tile_addr g chn bno cno in
  if a <? 0 then None
  else match upd (gbuf g) (Z.to_nat a) v with
       | Some b => Some (mkG (gkeys g) b (gnch g) (gbg g))
       | None => None
       end.

(** lines 340-344 valueOr(chn, blockno, cellno, defaultVal) *)
Definition valueOr_cell (g : grid) (chn bno cno : Z) (defaultVal : V) : option V :=
  if bno =? sentinel_v then Some defaultVal else tile_read g chn bno cno.
(** lines 348-352 valueOr(false_type, chn, indexCoord, defaultVal) *)
Definition valueOr (g : grid) (chn : Z) (X : coordT) (defaultVal : V) : option V :=
  let '(bno, cno) := decomposeCoord g X in valueOr_cell g chn bno cno defaultVal.
(** ++coord[i] *)
Fixpoint incr (i : nat) (X : coordT) : coordT :=
  match X, i with
  | [], _ => []
  | x :: r, O => (x + 1) :: r
  | x :: r, S i' => x :: incr i' r
  end.
(** lines 356-364 valueOr(true_type, chn, indexCoord, orientation, defaultVal) *)
Definition valueOr_staggered (g : grid) (chn : Z) (X : coordT) (orientation : Z) (defaultVal : V) : option V :=
  let f := Z.rem orientation (Z.of_nat dim + Z.of_nat dim) in
  let coord := if Z.of_nat dim <=? f then incr (Z.to_nat (f - Z.of_nat dim)) X else X in
  valueOr g chn coord defaultVal.
(** lines 837-841 value(chn, X) (also the const operator(), 799-803) *)
Definition value (g : grid) (chn : Z) (X : coordT) : option V :=
  let '(bno, cno) := decomposeCoord g X in
  if bno =? sentinel_v then Some (gbg g) else tile_read g chn bno cno.
(** lines 862-867 value(chn, X, backgroundVal) *)
Definition value_default (g : grid) (chn : Z) (X : coordT) (b : V) : option V :=
  let '(bno, cno) := decomposeCoord g X in
  if bno =? sentinel_v then Some b else tile_read g chn bno cno.
(** lines 763-767: assignment through operator()(chn, X); an inactive voxel only
    prints a message and goes on with block -1 *)
Definition assign (g : grid) (chn : Z) (X : coordT) (v : V) : option grid :=
  let '(bno, cno) := decomposeCoord g X in tile_write g chn bno cno v.
(** lines 888-891 hasVoxel *)
Definition hasVoxel (g : grid) (X : coordT) : bool :=
  let '(bno, cno) := decomposeCoord g X in negb (bno =? sentinel_v).

(** lines 407-412 iCoord(bno, cno), iCoord(cellno) *)
Definition iCoord (g : grid) (bno cno : Z) : option coordT :=
  match at_ (gkeys g) bno with Some key => Some (vadd key (local_offset_to_coord cno)) | None => None end.
Definition iCoord_cell (g : grid) (cellno : Z) : option coordT :=
  iCoord g (Z.quot cellno block_size) (Z.rem cellno block_size).

(** lines 440-455: the key used by insert(x) and query(x); lower_trunc = floor
    (ZpcMathUtils.hpp 1810-1814) *)
Definition key_of (x : W) : coordT :=
  let X := map (fun q => Qfloor (q + (1#2))%Q) (w2i x) in
  vsub X (cellid X).
Definition insert (g : grid) (x : W) : Z * grid := table_insert g (key_of x).
Definition query (g : grid) (x : W) : Z := table_query g (key_of x).

(** lines 111-118 resize and construction: [n] tiles of nch channels, all
    elements [v0] (after a reset of _grid), no active block *)
Definition fresh (n : nat) (nch : Z) (bg v0 : V) : grid :=
  mkG [] (repeat v0 (n * Z.to_nat (block_size * nch))) nch bg.
(** _grid.reset(policy, v) (TileVector.hpp 624-640) *)
Definition reset (g : grid) (v : V) : grid :=
  mkG (gkeys g) (map (fun _ => v) (gbuf g)) (gnch g) (gbg g).
(** _table.clear / reset: no active block, the tiles keep their contents *)
Definition table_clear (g : grid) : grid := mkG [] (gbuf g) (gnch g) (gbg g).

(** scaffolding: the modifying calls of geometry/SparseGrid.hpp *)
Inductive op := OInsert (x : W) | OSet (chn : Z) (X : coordT) (v : V) | OReset (v : V).
(** scaffolding: one such call *)
Definition step (g : option grid) (o : op) : option grid :=
  match g with
  | None => None
  | Some g => match o with
    | OInsert x => Some (snd (insert g x))
    | OSet chn X v => assign g chn X v
    | OReset v => Some (reset g v)
    end
  end.
(** scaffolding: a sequence of calls *)
Definition run (g : grid) (ops : list op) : option grid := fold_left step ops (Some g).

(** InterpolationKernel.hpp 598-601: CacheRecord, one level *)
Record acc := mkAcc { ccoord : coordT; cbno : Z }.
(** lines 593-596: get_key_sentinel, numeric max of int in every component *)
Definition acc0 : acc := mkAcc (repeat (2 ^ 31 - 1) dim) sentinel_v.
(** SparseGrid.hpp 230 origin_mask *)
Definition origin_mask : Z := Z.lnot (side - 1).
Definition origin (X : coordT) : coordT := map (fun x => Z.land x origin_mask) X.
(** lines 690-699 isHashed *)
Fixpoint isHashed_from (X cc : coordT) : bool :=
  match X, cc with
  | x :: X', c :: cc' => if Z.land x origin_mask =? c then isHashed_from X' cc' else false
  | _, _ => true
  end.
Definition isHashed (a : acc) (X : coordT) : bool := isHashed_from X (ccoord a).
(** lines 682-689 insert *)
Definition acc_insert (a : acc) (X : coordT) (bno : Z) : acc := mkAcc (origin X) bno.
(** SparseGrid.hpp 310-340 probeValueAndCache, scalar value, RequireHash = [rh] *)
Definition probeValueAndCache (g : grid) (a : acc) (chn : Z) (X : coordT) (rh : bool) : option (bool * V * acc) :=
  if rh && (table_query g (origin X) =? sentinel_v) then Some (false, gbg g, a)
  else
    let '(bno, cno) := decomposeCoord g X in
    let a' := acc_insert a X bno in
    match tile_read g chn bno cno with Some v => Some (true, v, a') | None => None end.
(** InterpolationKernel.hpp 656-673 probeValue with one cached level *)
Definition probeValue (g : grid) (a : acc) (chn : Z) (X : coordT) : option (bool * V * acc) :=
  if isHashed a X then probeValueAndCache g a chn X false
  else probeValueAndCache g a chn X true.
(** A client that keeps one accessor (as GridArena::arena does over a stencil,
    lines 386-392) while it also modifies the grid: the answers of its probes in
    order, and the final grid. *)
Inductive ev := EOp (o : op) | EProbe (chn : Z) (X : coordT) | EClear.
Fixpoint run_acc (g : grid) (a : acc) (es : list ev) : option (list (bool * V) * grid) :=
  match es with
  | [] => Some ([], g)
  | EOp o :: r => match step (Some g) o with Some g' => run_acc g' a r | None => None end
  | EClear :: r => run_acc (table_clear g) a r
  | EProbe chn X :: r =>
    match probeValue g a chn X with
    | None => None
    | Some (b, v, a') =>
      match run_acc g a' r with Some (vs, g') => Some ((b, v) :: vs, g') | None => None end
    end
  end.
End G.

(** Reading a staggered (face-centred) field; values are exact rationals. *)
Section Staggered.
Variable k : Z.
Variable dim : nat.
Local Open Scope Z_scope.
(** lines 559-566: X + the given unit offsets *)
Definition unit_off (n : nat) (h : nat -> Z) : coordT := map h (seq 0 n).
(** lines 550-569 iStaggeredCellSample(propOffset, d, X, blockno, cellno, f) *)
Definition iStaggeredCellSample_at (g : grid Q) (propOffset : Z) (d : nat) (X : coordT) (bno cno : Z) (f : nat) : option Q :=
  let chn := propOffset + Z.of_nat d in
  let bg := gbg _ g in
  let at_off h := valueOr Q k dim g chn (vadd X (unit_off dim h)) bg in
  if Nat.eqb d f then valueOr_cell Q k dim g chn bno cno bg
  else
    match valueOr_cell Q k dim g chn bno cno bg,
          at_off (fun i => if Nat.eqb i d then 1 else 0),
          at_off (fun i => if Nat.eqb i f then -1 else 0),
          at_off (fun i => if Nat.eqb i d then 1 else if Nat.eqb i f then -1 else 0) with
    | Some a, Some b, Some c, Some e => Some ((a + b + c + e) * (1#4))%Q
    | _, _, _, _ => None
    end.
(** lines 573-580 iStaggeredCellSample(prop, chn, X, f) *)
Definition iStaggeredCellSample (g : grid Q) (propOffset : Z) (d : nat) (X : coordT) (f : nat) : option Q :=
  let '(coord, f) := if Nat.leb dim f then (incr (f - dim) X, (f - dim)%nat) else (X, f) in
  let '(bno, cno) := decomposeCoord Q k g coord in
  iStaggeredCellSample_at g propOffset d coord bno cno f.
(** lines 418-423 iStaggeredCoord: the index-space position of face f *)
Definition iStaggeredCoord (g : grid Q) (bno cno : Z) (f : nat) : option (list Q) :=
  match iCoord Q k dim g bno cno with
  | None => None
  | Some c => Some (map (fun p => (inject_Z (fst p) + (if Nat.eqb (snd p) f then (-1#2) else 0))%Q) (combine c (seq 0 (length c))))
  end.
End Staggered.
