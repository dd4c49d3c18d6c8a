(** Particle-grid transfers of the material point method:
    simulation/transfer/P2G.hpp, simulation/transfer/G2P.hpp,
    simulation/grid/GridOp.hpp (ComputeGridBlockVelocity, GridAngularMomentum),
    simulation/Utils.hpp (LocalArena, unpack_coord_in_grid) and the cell codec of
    geometry/Structure.hpp; three dimensions, the only case P2G and G2P handle.

    SIMPLIFICATIONS: float arithmetic is exact rational arithmetic; integer
    coordinates are unbounded; the partition (HashTableView) is the list of its
    active keys in order of their indices; a parallel launch performs the atomic
    additions of all its bodies in any order (C20: atomic_add adds); the grid's
    tiles are a function of block, channel and cell (the tile layout is C11). *)
From Coq Require Import QArith Qround.
From Verif Require Import Prelude KernModel.
From Verif Require SgModel.
Import SgModel(coordT, find_key, sentinel_v).
Open Scope Q_scope.

(** a vec<T, n>: its components *)
Definition vec := nat -> Q.

(** ** The cell codec *)
Section Codec.
Variable k : Z.        (* num_cell_bits = log2 side_length, Structure.hpp 57-59 *)
Local Open Scope Z_scope.
Definition side : Z := 2 ^ k.
(** Structure.hpp 309-318 cellid_to_coord, power-of-two branch *)
Fixpoint cell_digits (d : nat) (cellid : Z) (ret : coordT) : coordT :=
  match d with
  | O => ret
  | S d' => cell_digits d' (Z.shiftr cellid k) (Z.land cellid (side - 1) :: ret)
  end.
Definition cellid_to_coord (cellid : Z) : coordT := cell_digits 3 cellid [].
(** Structure.hpp 323-331 coord_to_cellid, power-of-two branch *)
Definition coord_to_cellid (c : coordT) : Z := fold_left (fun ret cd => Z.lor (Z.shiftl ret k) cd) c 0.
(** Utils.hpp 9-29 unpack_coord_in_grid: local coordinate, block coordinate *)
Definition local_index (z : coordT) : coordT := map (fun x => Z.land x (side - 1)) z.
Definition block_coord (z : coordT) : coordT := map (fun x => Z.quot (x - Z.land x (side - 1)) side) z.
(** the tile and cell of a node; None: the block is not in the partition, and
    grid[-1] is accessed *)
Definition slot_of (keys : list coordT) (z : coordT) : option (Z * Z) :=
  let b := find_key keys (block_coord z) 0 in
  if b =? sentinel_v then None else Some (b, coord_to_cellid (local_index z)).
End Codec.

(** ** LocalArena (Utils.hpp 31-175), collocated grid, quadratic kernel, as made
    by make_local_arena (177-185) *)
Record arena := mkArena { acorner : nat -> Z; alocal : vec; aw : nat -> list Q; adx : Q }.
(** lines 52-72 init *)
Definition make_local_arena (dx : Q) (pos : vec) : arena :=
  let X d := pos d / dx in
  let corner d := base_node 1 (X d) in
  let localPos d := X d - inject_Z (corner d) in
  mkArena corner (fun d => localPos d * dx) (fun d => w0s (quadratic_row (localPos d))) dx.
(** line 74 range *)
Definition arange : list (list nat) := ndrange 3 3.
Definition axes : list nat := [0; 1; 2]%nat.
(** lines 78-84, 100-106 weight_impl *)
Definition weight (a : arena) (loc : list nat) : Q :=
  fold_left (fun ret d => ret * nth (nth d loc O) (aw a d) 0) axes 1.
(** lines 160-165 diff: offset * dx - localPos *)
Definition diff (a : arena) (loc : list nat) : vec :=
  fun d => inject_Z (Z.of_nat (nth d loc O)) * adx a - alocal a d.
(** lines 166-171 coord *)
Definition coord (a : arena) (loc : list nat) : coordT :=
  map (fun d => (Z.of_nat (nth d loc O) + acorner a d)%Z) axes.

(** the properties of a particle read and written by P2G.hpp and G2P.hpp *)
Record particle := mkP { pm : Q; px : vec; pv : vec; pC : vec; pJ : Q; pF : vec }.

(** a tile memory: block, channel, cell *)
Definition mem := Z -> nat -> Z -> Q.
(** one atomic addition *)
Record inc := mkInc { ib : Z; ich : nat; ic : Z; iq : Q }.
Definition apply_inc (m : mem) (i : inc) : mem :=
  fun b ch c => if Z.eqb b (ib i) && Nat.eqb ch (ich i) && Z.eqb c (ic i) then m b ch c + iq i else m b ch c.

Section Transfer.
Variable k : Z.
Variable keys : list coordT.
Variable dx dt : Q.

(** ** P2GTransfer::operator() (P2G.hpp 46-125); [stress p] is the [contrib]
    computed in lines 61-103 *)
Section P2G.
Variable stress : particle -> vec.
(** lines 109-124: the body of the loop over the stencil *)
Definition p2g_node (p : particle) (loc : list nat) : option (list inc) :=
  let dx_inv := 1 / dx in
  let D_inv := 4 * dx_inv * dx_inv in
  let contrib e := stress p e * (- dt) * D_inv in
  let a := make_local_arena dx (px p) in
  match slot_of k keys (coord a loc) with
  | None => None
  | Some (b, c) =>
    let xixp := diff a loc in
    let W := weight a loc in
    Some (mkInc b 0 c (pm p * W) ::
          flat_map (fun d =>
            [mkInc b (1 + d) c (W * pm p * (pv p d + (pC p d * xixp 0%nat + pC p (3 + d)%nat * xixp 1%nat + pC p (6 + d)%nat * xixp 2%nat)));
             mkInc b (3 + 1 + d) c ((contrib d * xixp 0%nat + contrib (3 + d)%nat * xixp 1%nat + contrib (6 + d)%nat * xixp 2%nat) * W)]) axes)
  end.
Fixpoint all_some {A B} (f : A -> option (list B)) (l : list A) : option (list B) :=
  match l with
  | [] => Some []
  | x :: r => match f x, all_some f r with Some a, Some b => Some (a ++ b) | _, _ => None end
  end.
Definition p2g_particle (p : particle) : option (list inc) := all_some (p2g_node p) arange.
(** the launch over all particles: every atomic addition it makes *)
Definition p2g_incs (ps : list particle) : option (list inc) := all_some p2g_particle ps.
(** a run of the launch: the additions are performed in some order *)
Definition p2g_run (ps : list particle) (m m' : mem) : Prop :=
  exists l order, p2g_incs ps = Some l /\ Permutation l order /\ m' = fold_left apply_inc order m.
End P2G.

(** lines 61-83: contrib of the equation-of-state model *)
Record eos := mkEos { volume : Q; bulk : Q; viscosity : Q }.
Definition eos_stress (md : eos) (p : particle) : vec :=
  let C := pC p in
  let J := pJ p in
  let vol := volume md * J in
  let J2 := J * J in
  let J4 := J2 * J2 in
  let pressure := bulk md * (1 / (J * J2 * J4) - 1) in
  fun e => nth e
    [((C 0%nat + C 0%nat) * viscosity md - pressure) * vol; (C 1%nat + C 3%nat) * viscosity md * vol; (C 2%nat + C 6%nat) * viscosity md * vol;
     (C 3%nat + C 1%nat) * viscosity md * vol; ((C 4%nat + C 4%nat) * viscosity md - pressure) * vol; (C 5%nat + C 7%nat) * viscosity md * vol;
     (C 6%nat + C 2%nat) * viscosity md * vol; (C 7%nat + C 5%nat) * viscosity md * vol; ((C 8%nat + C 8%nat) * viscosity md - pressure) * vol] 0.

(** ** The cells of the grid, in the order of the launch over blocks and cells *)
Definition cells : list Z := map Z.of_nat (seq 0 (Z.to_nat (side k ^ 3))).
Definition blocks : list Z := map Z.of_nat (seq 0 (length keys)).
Definition slots : list (Z * Z) := list_prod blocks cells.

(** ** ComputeGridBlockVelocity (GridOp.hpp 91-108); maxVel is not modelled *)
Definition block_velocity (extf : vec) (m : mem) (s : Z * Z) : mem :=
  let '(b0, c0) := s in
  if Qeq_bool (m b0 0%nat c0) 0 then m
  else
    let inv := 1 / m b0 0%nat c0 in
    fun b ch c =>
      if Z.eqb b b0 && Z.eqb c c0 && Nat.leb 1 ch && Nat.leb ch 3
      then m b ch c * inv + extf (ch - 1)%nat * dt else m b ch c.
Definition grid_velocity (extf : vec) (m : mem) (order : list (Z * Z)) : mem := fold_left (block_velocity extf) order m.

(** ** G2PTransfer::operator() (G2P.hpp 43-82); [eqs] selects the
    equation-of-state branch *)
Definition g2p_nodes (m : mem) (p : particle) : option (list (Q * vec * vec)) :=
  let a := make_local_arena dx (px p) in
  all_some (fun loc => match slot_of k keys (coord a loc) with
    | None => None
    | Some (b, c) => Some [(weight a loc, diff a loc, fun d => m b (1 + d)%nat c)]
    end) arange.
(** MatrixUtils.h 136-146 matrixMatrixMultiplication3d *)
Definition mul3 (a b : vec) : vec :=
  fun e => nth e
    [a 0%nat * b 0%nat + a 3%nat * b 1%nat + a 6%nat * b 2%nat; a 1%nat * b 0%nat + a 4%nat * b 1%nat + a 7%nat * b 2%nat; a 2%nat * b 0%nat + a 5%nat * b 1%nat + a 8%nat * b 2%nat;
     a 0%nat * b 3%nat + a 3%nat * b 4%nat + a 6%nat * b 5%nat; a 1%nat * b 3%nat + a 4%nat * b 4%nat + a 7%nat * b 5%nat; a 2%nat * b 3%nat + a 5%nat * b 4%nat + a 8%nat * b 5%nat;
     a 0%nat * b 6%nat + a 3%nat * b 7%nat + a 6%nat * b 8%nat; a 1%nat * b 6%nat + a 4%nat * b 7%nat + a 7%nat * b 8%nat; a 2%nat * b 6%nat + a 5%nat * b 7%nat + a 8%nat * b 8%nat] 0.
Definition g2p (eqs : bool) (m : mem) (p : particle) : option particle :=
  let dx_inv := 1 / dx in
  let D_inv := 4 * dx_inv * dx_inv in
  match g2p_nodes m p with
  | None => None
  | Some ns =>
    let vel d := fold_left (fun v n => let '(W, xixp, vi) := n in v + vi d * W) ns 0 in
    let C e := fold_left (fun s n => let '(W, xixp, vi) := n in s + W * vi (e mod 3)%nat * xixp (e / 3)%nat * D_inv) ns 0 in
    let pos d := px p d + vel d * dt in
    let tmp e := C e * dt + (if Nat.eqb (Nat.land e 3) 0 then 1 else 0) in
    Some (mkP (pm p) pos vel C
              (if eqs then (1 + (C 0%nat + C 4%nat + C 8%nat) * dt) * pJ p else pJ p)
              (if eqs then pF p else mul3 tmp (pF p)))
  end.
Fixpoint g2p_all (eqs : bool) (m : mem) (ps : list particle) : option (list particle) :=
  match ps with
  | [] => Some []
  | p :: r => match g2p eqs m p, g2p_all eqs m r with Some p', Some r' => Some (p' :: r') | _, _ => None end
  end.

(** ** GridAngularMomentum (GridOp.hpp 223-249): the six sums, mChn = 0, mvChn = 1 *)
Definition node_pos (b c : Z) : vec :=
  fun d => (inject_Z (nth d (nth (Z.to_nat b) keys []) 0%Z) * inject_Z (side k) + inject_Z (nth d (cellid_to_coord k c) 0%Z)) * dx.
Definition cross (x y : vec) : vec :=
  fun d => nth d [x 1%nat * y 2%nat - x 2%nat * y 1%nat; x 2%nat * y 0%nat - x 0%nat * y 2%nat; x 0%nat * y 1%nat - x 1%nat * y 0%nat] 0.
Definition angular_inc (m : mem) (sum : vec) (s : Z * Z) : vec :=
  let '(b, c) := s in
  if Qeq_bool (m b 0%nat c) 0 then sum
  else
    let mv d := m b (1 + d)%nat c in
    fun i => if Nat.ltb i 3 then sum i + cross (node_pos b c) mv i
             else if Nat.ltb i 6 then sum i + mv (i - 3)%nat else sum i.
Definition angular_momentum (m : mem) (sum : vec) (order : list (Z * Z)) : vec := fold_left (angular_inc m) order sum.
End Transfer.
