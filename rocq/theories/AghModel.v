(** Model of the hierarchy of AdaptiveGridImpl (geometry/AdaptiveGrid.hpp): complementTopo (1838-1955), reorder (535-640) and the reads of
    AdaptiveGridUnnamedView: getValueLevel (968-993), topoObliviousProbeValue (996-1033), probeValue (1034-1087), valueOr/value (1158-1187).
    The grid is the list of its levels, the coarsest first: the head of a list of n+1 levels is level n.
    Simplifications: a hash table is the list of its keys in the order of _activeKeys, a query is a search of that list (the table itself is
    the subject of C27, C28), and its insertions never fail; one channel; coordinates are unbounded; bit masks are lists of bits; the order
    in which concurrent insertions take place and the order in which radix_sort_pair puts the coarsest blocks are arguments.
    An uninitialised mask, tile or key is the empty list: reading a bit or a value of it fails.  None = exception or undefined behaviour. *)
From Verif Require Import Prelude AgridModel.
Open Scope Z_scope.

Notation coord := (list Z).
(** equality of integer_coord_type (AdaptiveGrid.hpp 138; VecInterface.hpp 997) *)
Definition coord_eqb (a b : coord) : bool := if list_eq_dec Z.eq_dec a b then true else false.
(** sum of two integer_coord_type (AdaptiveGrid.hpp 138; VecInterface.hpp 726-737) *)
Definition vadd (a b : coord) : coord := map (fun p => fst p + snd p) (combine a b).

(** scaffolding for the loops of AdaptiveGrid.hpp 1838-1955: a fallible body on every element *)
Fixpoint mapM {A B} (f : A -> option B) (l : list A) : option (list B) :=
  match l with
  | [] => Some []
  | x :: r => match f x with Some y => match mapM f r with Some s => Some (y :: s) | None => None end | None => None end
  end.

Section Grid.
Open Scope nat_scope.
Variable T C : list Z.   (* TileBits, ScalingBits *)
Variable dim : nat.
Variable V : Type.
Variable zero bg : V.    (* the value whose bytes are 0, _background *)

(** get_hierarchy_size, get_tile_size *)
Definition hsz (i : nat) : nat := Z.to_nat (2 ^ (hierarchy_bits T C i * Z.of_nat dim)).
Definition tsz (i : nat) : nat := Z.to_nat (2 ^ (tile_bits T i * Z.of_nat dim)).
Definition hoff (i : nat) (c : coord) : option nat := option_map Z.to_nat (coord_to_hierarchy_offset T C i c).
Definition toff (i : nat) (c : coord) : option nat := option_map Z.to_nat (coord_to_tile_offset T C i c).
Definition hpos (i n : nat) : option coord := hierarchy_offset_to_coord T C dim i (Z.of_nat n).

(** Vector of masks: its elements and its capacity *)
Record mvec := MV { elts : list (list bool); cap : nat }.
(** Level (162-275): table, grid, valueMask, childMask, childOffset *)
Record level := Level { keys : list coord; grid : list (list V); vmask : mvec; cmask : mvec; choff : list nat }.

(** bht query: the block number of a key, sentinel_v = None *)
Fixpoint query (ks : list coord) (k : coord) : option nat :=
  match ks with [] => None | x :: r => if coord_eqb x k then Some 0 else option_map S (query r k) end.
(** bht insert: a new key gets the next block number *)
Definition insert_key (ks : list coord) (k : coord) : list coord := match query ks k with Some _ => ks | None => ks ++ [k] end.

(** Vector::resize (Vector.hpp 228-256, 407-416) *)
Definition resize_list {A} (d : A) (l : list A) (n : nat) : list A := firstn n l ++ repeat d (n - length l).
Definition mresize (v : mvec) (n : nat) : mvec :=
  MV (resize_list [] (elts v) n) (if n <=? cap v then cap v else Nat.max n (cap v + cap v / 2)).
(** Resource::memset of the elements from prev on *)
Definition fill_from {A} (d : A) (prev : nat) (l : list A) : list A := firstn prev l ++ repeat d (length l - prev).

(** VectorReorder / TileVectorTileReorder / ReorderBht: parallel stores (Vector.hpp 615-627, TileVector.hpp 641-667, Bht.hpp 342-370) *)
Fixpoint scatter {A} (dsts : list nat) (vs : list A) (base : list A) : option (list A) :=
  match dsts, vs with
  | [], _ => Some base
  | d :: ds, v :: vs' => match upd base d v with Some b => scatter ds vs' b | None => None end
  | _ :: _, [] => None
  end.
Definition gather {A} (srcs : list nat) (vs : list A) (base : list A) : option (list A) :=
  match mapM (nth_error vs) srcs with Some ws => scatter (seq 0 (length srcs)) ws base | None => None end.
Definition move {A} (scat : bool) (m : list nat) (vs base : list A) : option (list A) := if scat then scatter m vs base else gather m vs base.
(** Vector::reorder (Vector.hpp 628-647): throws unless the map has as many entries as the vector, and
    the new vector has capacity() elements *)
Definition mreorder (scat : bool) (m : list nat) (v : mvec) : option mvec :=
  if length m =? length (elts v) then
    match move scat m (elts v) (repeat [] (cap v)) with Some e => Some (MV e (cap v)) | None => None end
  else None.
(** TileVector::reorderTiles (TileVector.hpp 668-692): throws unless the map has as many entries as there are tiles *)
Definition greorder (scat : bool) (m : list nat) (g : list (list V)) : option (list (list V)) :=
  if length m =? length g then move scat m g (repeat [] (length g)) else None.
(** bht::reorder (Bht.hpp 371-397) *)
Definition kreorder (scat : bool) (m : list nat) (ks : list coord) : option (list coord) :=
  if length m =? length ks then move scat m ks (repeat [] (length ks)) else None.
(** one level: table, grid data (if SortGridData), valueMask, childMask (595-600, 628-633) *)
Definition level_reorder (sortg scat : bool) (m : list nat) (l : level) : option level :=
  match kreorder scat m (keys l), (if sortg then greorder scat m (grid l) else Some (grid l)), mreorder scat m (vmask l), mreorder scat m (cmask l) with
  | Some k, Some g, Some v, Some c => Some (Level k g v c (choff l))
  | _, _, _, _ => None
  end.

(** BitMask::countOn, countOffset (Mask.hpp 98-111) *)
Definition count_on (m : list bool) : nat := length (filter (fun b => b) m).
Definition count_offset (m : list bool) (n : nat) : nat := count_on (firstn n m).

(** _update_topo_update_childmask (378-399): bit n is on when the child table has the n-th child *)
Definition childmask (i : nat) (ctab : list coord) (origin : coord) : option (list bool) :=
  mapM (fun n => match hpos i n with
                 | Some d => Some (match query ctab (vadd origin d) with Some _ => true | None => false end)
                 | None => None
                 end) (seq 0 (hsz i)).
(** complementParentTopo (1854-1949) for the level i above lc; sched is the order in which the children insert their parents (370-377) *)
Definition complement_level (sched : nat -> list coord -> list coord) (i : nat) (lp lc : level) : option level :=
  let prev := length (keys lp) in
  let ks := fold_left insert_key (map (coord_to_key T C i) (sched i (keys lc))) (keys lp) in
  let par := length ks in
  let vm := mresize (vmask lp) par in
  let cm := mresize (cmask lp) par in
  match mapM (childmask i (keys lc)) ks with
  | Some ms => Some (Level ks (fill_from (repeat zero (tsz i)) prev (resize_list [] (grid lp) par))
                           (MV (fill_from (repeat false (tsz i)) prev (elts vm)) (cap vm)) (MV ms (cap cm))
                           (resize_list 0 (choff lp) (par + 1)))
  | None => None
  end.
(** the levels in turn, from the finest up (1950) *)
Fixpoint complement_up (sched : nat -> list coord -> list coord) (g : list level) : option (list level) :=
  match g with
  | [] => Some []
  | l :: rest =>
    match complement_up sched rest with
    | Some rest' => match rest' with
                    | [] => Some [l]
                    | lc :: _ => match complement_level sched (length rest) l lc with Some l' => Some (l' :: rest') | None => None end
                    end
    | None => None
    end
  end.

(** numActiveChildren and its exclusive scan (602-605) *)
Fixpoint scan_from (a : nat) (l : list nat) : list nat := match l with [] => [a] | x :: r => a :: scan_from (a + x) r end.
Definition count_children (l : level) : option level :=
  let nbs := length (keys l) in
  match mapM (fun p => option_map count_on (nth_error (elts (cmask l)) p)) (seq 0 nbs) with
  | Some ns => if nbs + 1 <=? length (choff l)
               then Some (Level (keys l) (grid l) (vmask l) (cmask l) (scan_from 0 ns ++ skipn (nbs + 1) (choff l)))
               else None
  | None => None
  end.
(** _reorder_locate_children (554-566) *)
Definition locate (i : nat) (l : level) (k : coord) : option nat :=
  match query (keys l) (coord_to_key T C i k), hoff i k with
  | Some p, Some n => match nth_error (choff l) p, nth_error (elts (cmask l)) p with
                      | Some o, Some m => Some (o + count_offset m n)
                      | _, _ => None
                      end
  | _, _ => None
  end.
(** reorder<I> from the second half on (601-639) *)
Fixpoint reorder_down (sortg : bool) (l : level) (rest : list level) : option (list level) :=
  match rest with
  | [] => Some [l]
  | lc :: rest' =>
    match count_children l with
    | Some l' =>
      match mapM (locate (length rest) l') (keys lc) with
      | Some dsts => match level_reorder sortg true dsts lc with
                     | Some lc' => match reorder_down sortg lc' rest' with Some r => Some (l' :: r) | None => None end
                     | None => None
                     end
      | None => None
      end
    | None => None
    end
  end.
(** reorder (567-640): top is sortedIndices *)
Definition reorder (sortg : bool) (top : list nat) (g : list level) : option (list level) :=
  match g with
  | [] => None
  | l :: rest => match level_reorder sortg false top l with Some l' => reorder_down sortg l' rest | None => None end
  end.
Definition complement_topo (sortg : bool) (sched : nat -> list coord -> list coord) (top : list level -> list nat) (g : list level) : option (list level) :=
  match complement_up sched g with Some g' => reorder sortg (top g') g' | None => None end.

(** the value and the mask bit of the cell of c in block p of level i *)
Definition cell (i : nat) (l : level) (c : coord) (p : nat) : option (V * bool) :=
  match toff i c, nth_error (grid l) p, nth_error (elts (vmask l)) p with
  | Some n, Some t, Some m => match nth_error t n, nth_error m n with Some v, Some b => Some (v, b) | _, _ => None end
  | _, _, _ => None
  end.
Definition block_of (l : level) (i : nat) (c : coord) (b : option nat) : option nat :=
  match b with Some p => Some p | None => query (keys l) (coord_to_key T C i c) end.
(** isOff(n) of the child mask, and the block number handed to the next level *)
Definition child_of (ordered : bool) (l : level) (i : nat) (c : coord) (p : nat) : option (option (option nat)) :=
  match hoff i c, nth_error (elts (cmask l)) p with
  | Some n, Some m =>
    match nth_error m n with
    | Some true => if ordered then match nth_error (choff l) p with Some o => Some (Some (Some (o + count_offset m n))) | None => None end else Some (Some None)
    | Some false => Some None
    | None => None
    end
  | _, _ => None
  end.
(** probeValue 1034-1087 *)
Fixpoint probe (ordered : bool) (g : list level) (c : coord) (b : option nat) : option (V * bool) :=
  match g with
  | [] => None
  | l :: rest =>
    let i := length rest in
    match block_of l i c b with
    | None => Some (bg, false)
    | Some p =>
      match rest with
      | [] => cell i l c p
      | _ :: _ => match child_of ordered l i c p with
                  | Some (Some b') => probe ordered rest c b'
                  | Some None => cell i l c p
                  | None => None
                  end
      end
    end
  end.
(** getValueLevel 968-993 *)
Fixpoint value_level (ordered : bool) (g : list level) (c : coord) (b : option nat) : option nat :=
  match g with
  | [] => None
  | l :: rest =>
    let i := length rest in
    match block_of l i c b with
    | None => Some i
    | Some p =>
      match rest with
      | [] => Some 0
      | _ :: _ => match child_of ordered l i c p with
                  | Some (Some b') => value_level ordered rest c b'
                  | Some None => Some i
                  | None => None
                  end
      end
    end
  end.
(** topoObliviousProbeValue 996-1033 *)
Fixpoint oblivious (g : list level) (c : coord) : option (V * bool) :=
  match g with
  | [] => None
  | l :: rest =>
    let i := length rest in
    match query (keys l) (coord_to_key T C i c) with
    | None => Some (bg, false)
    | Some p =>
      match cell i l c p with
      | Some (v, on) => match rest with [] => Some (v, on) | _ :: _ => if on then Some (v, true) else oblivious rest c end
      | None => None
      end
    end
  end.
(** valueOr 1158-1166, value 1179-1184 *)
Definition value_or (g : list level) (c : coord) (d : V) : option V :=
  match probe true g c None with Some (v, true) => Some v | Some (_, false) => Some d | None => None end.
Definition value (g : list level) (c : coord) : option V := option_map fst (probe true g c None).
End Grid.
