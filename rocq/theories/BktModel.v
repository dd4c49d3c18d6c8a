(** Sparsity computation and index buckets:
    simulation/sparsity/SparsityOp.hpp, simulation/sparsity/SparsityCompute.tpp,
    simulation/particle/Query.tpp, container/IndexBuckets.hpp; every dimension.

    SIMPLIFICATIONS: float arithmetic is exact rational arithmetic; integer
    coordinates are unbounded; the hash table is the list of its active keys in
    order of their indices, an insertion being one atomic step (C31 covers the
    table itself); parallel bodies are interleaved at their atomic operations. *)
From Coq Require Import QArith Qround.
From Verif Require Import Prelude KernModel.
From Verif Require SgModel HashTableModel.
Import SgModel(coordT, find_key, sentinel_v).
Open Scope Z_scope.

(** the positions read at SparsityOp.hpp 67-69, 125-127, 175-177, by component *)
Definition position := list Q.

(** SparsityOp.hpp 67-69, 125-127, 175-177: the cell of a position *)
Definition cell_coord (dx disp : Q) (offset : Z) (x : position) : coordT :=
  map (fun v => lower_trunc (v * (1 / dx) + disp)%Q + offset) x.
(** 70-72, 128-130, 178-180: truncating division after a shift of negative
    coordinates *)
Definition block_of (blockLen : Z) (c : coordT) : coordT :=
  map (fun v => Z.quot (v + (if v <? 0 then - blockLen + 1 else 0)) blockLen) c.
Definition particle_block (dx disp : Q) (offset blockLen : Z) (x : position) : coordT :=
  block_of blockLen (cell_coord dx disp offset x).

(** table.insert: a new key gets the next index *)
Definition insert (keys : list coordT) (key : coordT) : list coordT :=
  if in_dec (list_eq_dec Z.eq_dec) key keys then keys else keys ++ [key].
(** CleanSparsity (41-55) empties the table; ComputeSparsity (57-83): one launch
    over the particles, in the order of their insertions *)
Definition compute_sparsity (dx disp : Q) (offset blockLen : Z) (order : list position) : list coordT :=
  fold_left (fun keys x => insert keys (particle_block dx disp offset blockLen x)) order [].

(** EnlargeSparsity (85-115): lo <= offset < hi in every axis, first axis
    slowest; written for any dimension, the code has 2 and 3 *)
Fixpoint box_offsets (lohi : list (Z * Z)) : list coordT :=
  match lohi with
  | [] => [[]]
  | (lo, hi) :: r => flat_map (fun x => map (cons x) (box_offsets r)) (map (fun i => lo + Z.of_nat i) (seq 0 (Z.to_nat (hi - lo))))
  end.
Definition vadd (a b : coordT) : coordT := map (fun p => fst p + snd p) (combine a b).
Definition enlarge1 (lohi : list (Z * Z)) (keys : list coordT) (i : nat) : list coordT :=
  fold_left (fun ks d => insert ks (vadd (nth i keys []) d)) (box_offsets lohi) keys.
Definition enlarge (lohi : list (Z * Z)) (keys : list coordT) (order : list nat) : list coordT :=
  fold_left (enlarge1 lohi) order keys.

(** SparsityCompute.tpp 6-22 partition_for_particles: offset -2, displacement 0.5
    (the defaults of ComputeSparsity) *)
Definition partition_for_particles (dx : Q) (blocklen : Z) (order : list position) : list coordT :=
  compute_sparsity dx (1#2) (-2) blocklen order.
(** lines 9-13: the number of slots it gives the table *)
Definition partition_slots (dim : nat) (blocklen : Z) (n : nat) : nat :=
  HashTableModel.table_size (Z.to_nat (Nat.iter dim (fun c => c / blocklen) (Z.of_nat n))).

(** ** index_buckets_for_particles (Query.tpp 9-57) *)
Section Buckets.
Variables (dx disp : Q) (xs : list position).
Definition pos (p : nat) : position := nth p xs [].
Definition cell (p : nat) : coordT := particle_block dx disp 0 1 (pos p).
(** table.query *)
Definition cellno (keys : list coordT) (p : nat) : Z := find_key keys (cell p) 0.

(** SpatiallyCount (117-148): atomic increments, in some order *)
Definition count_run (keys : list coordT) (order : list nat) : Z -> Z :=
  fold_left (fun c p => fun b => if b =? cellno keys p then c b + 1 else c b) order (fun _ => 0).
(** exclusive_scan over the numCells = table.size() + 1 counts (Query.tpp 45) *)
Fixpoint scan (counts : Z -> Z) (b : nat) : Z :=
  match b with O => 0 | S b' => scan counts b' + counts (Z.of_nat b') end.

(** SpatiallyDistribute (150-194): the fetch-and-add of line 184 and the store of
    line 186 of every particle, interleaved *)
Inductive ev := Fetch (p : nat) | Store (p : nat).
Record dstate := mkD { tmp : Z -> Z; dst : nat -> Z; idx : Z -> Z }.
Definition dstep (keys : list coordT) (offsets : Z -> Z) (s : dstate) (e : ev) : dstate :=
  match e with
  | Fetch p => mkD (fun b => if b =? cellno keys p then tmp s b + 1 else tmp s b)
                   (fun q => if Nat.eqb q p then tmp s (cellno keys p) else dst s q) (idx s)
  | Store p => mkD (tmp s) (dst s) (fun i => if i =? offsets (cellno keys p) + dst s p then Z.of_nat p else idx s i)
  end.
Definition distribute (keys : list coordT) (offsets : Z -> Z) (evs : list ev) (idx0 : Z -> Z) : Z -> Z :=
  idx (fold_left (dstep keys offsets) evs (mkD (fun _ => 0) (fun _ => 0) idx0)).
(** an interleaving of n bodies *)
Definition schedule (n : nat) (evs : list ev) : Prop :=
  NoDup evs /\ (forall p, (p < n)%nat -> In (Fetch p) evs /\ In (Store p) evs) /\
  (forall e, In e evs -> match e with Fetch p | Store p => (p < n)%nat end) /\
  (forall p a b, evs = a ++ Store p :: b -> In (Fetch p) a).

(** IndexBuckets.hpp 56-57: _indices, _offsets, _counts, and the table of the occupied cells *)
Record buckets := mkB { table : list coordT; counts : Z -> Z; offsets : Z -> Z; indices : Z -> Z; bdx : Q }.
(** the launches one after the other; the particles in the order their bodies
    take effect *)
Definition index_buckets (order1 order2 : list nat) (evs : list ev) (idx0 : Z -> Z) : buckets :=
  let keys := compute_sparsity dx disp 0 1 (map pos order1) in
  let c := count_run keys order2 in
  let o b := scan c (Z.to_nat b) in
  mkB keys c o (distribute keys o evs idx0) dx.
End Buckets.

(** IndexBucketsView (IndexBuckets.hpp 66-127): coord_offset (83-84), bucketCoord
    (102-108), bucketNo (112-114) *)
Definition bucketCoord (collocated : bool) (b : buckets) (x : position) : coordT :=
  map (fun v => lower_trunc (v * (1 / bdx b) + (if collocated then 1#2 else 0))%Q) x.
Definition bucketNo (b : buckets) (c : coordT) : Z := find_key (table b) c 0.
