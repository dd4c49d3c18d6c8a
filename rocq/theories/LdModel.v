(** * The domain of a sparse level set: marking, refitting, extending
    (include/zensim/geometry/LevelSetUtils.tpp 63-324), collocated category, dimension 3.

    Values are integers (fixed-point numbers): only comparisons, absolute values and sums are used
    on them.  The block table (bht) is the map its properties C27 to C29 establish, with room for
    every key: a failing insertion is not modelled, and resizing keeps keys and blocks. *)

From Coq Require Import List ZArith Arith Bool Lia.
Import ListNotations.

(** the origin of a block, the key type of the table used at LevelSetUtils.tpp 63-324 *)
Definition key := (Z * Z * Z)%type.
(** equality of keys (VecInterface.hpp 997) *)
Definition key_eqb (a b : key) : bool :=
  let '(x, y, z) := a in let '(x', y', z') := b in Z.eqb x x' && Z.eqb y y' && Z.eqb z z'.

(** SparseLevelSet (SparseLevelSet.hpp 53): _table._cnt, _table._activeKeys, the slots of _table
    and _grid by block, channel and cell. *)
Record spls := Spls { cnt : nat; akeys : nat -> key; tab : key -> option nat; grid : nat -> nat -> nat -> Z }.

(** The properties of the level set: getPropertyNames, Offsets and Sizes. *)
Inductive kind := Mark | Sdf | Other.
Record prop := Property { p_kind : kind; p_off : nat; p_size : nat }.

(** What stays fixed: the properties, block_size, _backgroundValue, dx, the number of channels and
    the offset of "mark". *)
Record setup := Setup { props : list prop; bsize : nat; background : Z; dx : Z; nchn : nat; moff : nat }.

(** The body of mark_level_set for one cell (LevelSetUtils.tpp 115-135): both loops stop at the
    first channel that qualifies. *)
Definition qualifies (c : setup) (thr : Z) (k : kind) (x : Z) : bool :=
  match k with
  | Mark => false
  | Sdf => Z.ltb x (background c + thr)
  | Other => Z.ltb thr (Z.abs x)
  end.
Definition cell_mark (c : setup) (thr : Z) (block : nat -> nat -> Z) (ci : nat) : Z :=
  if existsb (fun p => existsb (fun chn => qualifies c thr (p_kind p) (block (p_off p + chn) ci))
                         (seq 0 (p_size p))) (props c)
  then 1%Z else 0%Z.

(** mark_level_set (LevelSetUtils.tpp 63-136): every index writes the mark of its own cell and
    reads the other channels of that cell.  The printed count is left out; "mark" exists already. *)
Definition mark_level_set (c : setup) (thr : Z) (s : spls) : spls :=
  Spls (cnt s) (akeys s) (tab s)
    (fun b ch ci => if Nat.ltb b (cnt s) && Nat.eqb ch (moff c) && Nat.ltb ci (bsize c)
                    then cell_mark c thr (grid s b) ci else grid s b ch ci).

(** The block marks (LevelSetUtils.tpp 168-177): the writes marks[bi] = 1 commute. *)
Definition block_marked (c : setup) (s : spls) (bi : nat) : bool :=
  existsb (fun ci => negb (Z.eqb (grid s bi (moff c) ci) 0)) (seq 0 (bsize c)).
(** The array of nbs + 1 marks, the last entry uninitialised. *)
Definition marks (c : setup) (s : spls) (junk : nat -> nat) : list nat :=
  map (fun bi => if block_marked c s bi then 1 else 0) (seq 0 (cnt s)) ++ [junk (cnt s)].

(** exclusive_scan (LevelSetUtils.tpp 180-181; C14 to C16). *)
Fixpoint exscan (acc : nat) (l : list nat) : list nat :=
  match l with [] => [] | x :: r => acc :: exscan (acc + x) r end.

(** A store into a Vector; None out of bounds. *)
Fixpoint wr (l : list nat) (i x : nat) : option (list nat) :=
  match l, i with
  | [], _ => None
  | _ :: r, 0 => Some (x :: r)
  | y :: r, S i' => match wr r i' x with Some r' => Some (y :: r') | None => None end
  end.

(** blocknos[offsets[bi]] = bi for the marked blocks (LevelSetUtils.tpp 185-190), in the order the
    policy runs them. *)
Fixpoint gather (marked : nat -> bool) (offsets : list nat) (order : list nat) (blocknos : list nat) : option (list nat) :=
  match order with
  | [] => Some blocknos
  | bi :: r =>
      if marked bi
      then match wr blocknos (nth bi offsets 0) bi with Some b => gather marked offsets r b | None => None end
      else gather marked offsets r blocknos
  end.

(** bht::insert(key, index) (Bht.hpp 612-664): a present key stays, the counter is not touched. *)
Definition insert_at (t : key -> option nat) (k : key) (i : nat) : key -> option nat :=
  match t k with Some _ => t | None => fun k' => if key_eqb k' k then Some i else t k' end.

(** The loop that rebuilds the table (LevelSetUtils.tpp 200-207), from prevKeys. *)
Fixpoint rebuild (prev : nat -> key) (blocknos : list nat) (newNbs : nat) (order : list nat) (s : spls) : spls :=
  match order with
  | [] => s
  | bi :: r =>
      let k := prev (nth bi blocknos 0) in
      rebuild prev blocknos newNbs r
        (Spls (if Nat.eqb bi 0 then newNbs else cnt s)
              (fun i => if Nat.eqb i bi then k else akeys s i) (insert_at (tab s) k bi) (grid s))
  end.

(** refit_level_set_domain (LevelSetUtils.tpp 139-269) with the orders of its two scattered loops
    and the contents of uninitialised memory. *)
Definition refit (c : setup) (thr : Z) (junk : nat -> nat) (order1 : list nat) (order2 : nat -> list nat) (s : spls) : option spls :=
  let m := mark_level_set c thr s in
  let nbs := cnt m in
  let offsets := exscan 0 (marks c m junk) in
  let newNbs := nth nbs offsets 0 in
  match gather (block_marked c m) offsets order1 (map junk (seq 0 newNbs)) with
  | None => None
  | Some blocknos =>
      let t := rebuild (akeys m) blocknos newNbs (order2 newNbs) (Spls (cnt m) (akeys m) (fun _ => None) (grid m)) in
      Some (Spls (cnt t) (akeys t) (tab t)
        (fun b ch ci => if Nat.ltb b newNbs && Nat.ltb ch (nchn c) && Nat.ltb ci (bsize c)
                        then grid m (nth b blocknos 0) ch ci else grid m b ch ci))
  end.

(** bht::insert(key) (Bht.hpp 612-664): an absent key takes the next index. *)
Definition insert (s : spls) (k : key) : spls :=
  match tab s k with
  | Some _ => s
  | None => Spls (S (cnt s)) (fun i => if Nat.eqb i (cnt s) then k else akeys s i)
              (fun k' => if key_eqb k' k then Some (cnt s) else tab s k') (grid s)
  end.

(** ndrange<3>(3) minus one (LevelSetUtils.tpp 302-303). *)
Definition offs : list key :=
  flat_map (fun x => flat_map (fun y => map (fun z => (x, y, z)) [-1; 0; 1]%Z) [-1; 0; 1]%Z) [-1; 0; 1]%Z.

(** coord + offset, side_length = 8 (SparseLevelSet.hpp 20; LevelSetUtils.tpp 303-304). *)
Definition shift (k o : key) : key :=
  let '(x, y, z) := k in let '(a, b, c) := o in (x + a * 8, y + b * 8, z + c * 8)%Z.

(** The insertions of one layer (LevelSetUtils.tpp 287-306): pairs of block and offset, in the
    order in which they take effect. *)
Definition spawn (order : list (nat * key)) (s : spls) : spls :=
  fold_left (fun s '(bi, o) => insert s (shift (akeys s bi) o)) order s.

(** The channel of "sdf", if there is one. *)
Definition sdf_chn (c : setup) : option nat :=
  match find (fun p => match p_kind p with Sdf => true | _ => false end) (props c) with
  | Some p => Some (p_off p) | None => None end.

(** The initialisation of the blocks from nbs on (LevelSetUtils.tpp 309-320). *)
Definition fresh (c : setup) (nbs : nat) (s : spls) : spls :=
  Spls (cnt s) (akeys s) (tab s)
    (fun b ch ci =>
       if Nat.leb nbs b && Nat.ltb b (cnt s) && Nat.ltb ci (bsize c) then
         if match sdf_chn c with Some sc => Nat.eqb ch sc | None => false end then (background c + dx c)%Z
         else if Nat.ltb ch (nchn c) then 0%Z else grid s b ch ci
       else grid s b ch ci).

(** One round of the loop of extend_level_set_domain (LevelSetUtils.tpp 281-323). *)
Definition layer (c : setup) (order : list (nat * key)) (s : spls) : spls := fresh c (cnt s) (spawn order s).

(** extend_level_set_domain(pol, ls, nlayers) (LevelSetUtils.tpp 272-324): [orders] gives the
    order of each round from its base and number of blocks. *)
Fixpoint extend (c : setup) (orders : nat -> nat -> list (nat * key)) (nlayers base : nat) (s : spls) : spls :=
  match nlayers with
  | 0 => s
  | S n => extend c orders n (cnt s) (layer c (orders base (cnt s)) s)
  end.
