(** Specification: which blocks there are and what a coordinate reads. *)
From Verif Require Import Prelude AgridModel AghModel.
Open Scope nat_scope.

Section Spec.
Variable T C : list Z.
Variable dim : nat.
Variable V : Type.
Variable zero bg : V.
Notation level := (level V).

(** level i of a grid (its levels are listed coarsest first) *)
Definition lev (g : list level) (i : nat) : option level := nth_error (rev g) i.
Definition has_key (g : list level) (i : nat) (k : coord) : Prop := exists l, lev g i = Some l /\ In k (keys V l).

(** the blocks of a grid and all blocks containing them *)
Inductive Blocks (g : list level) : nat -> coord -> Prop :=
| B_own i k : has_key g i k -> Blocks g i k
| B_parent i k : Blocks g i k -> S i < length g -> Blocks g (S i) (coord_to_key T C (S i) k).

(** the tile and the value mask stored for block k of level i *)
Definition stored (g : list level) (i : nat) (k : coord) (t : list V) (m : list bool) : Prop :=
  exists l p, lev g i = Some l /\ nth_error (keys V l) p = Some k /\ nth_error (grid V l) p = Some t /\ nth_error (elts (vmask V l)) p = Some m.

(** level i is the finest level with a block around c *)
Definition finest (g : list level) (c : coord) (i : nat) : Prop :=
  Blocks g i (coord_to_key T C i c) /\ forall j, j < i -> ~ Blocks g j (coord_to_key T C j c).

(** what a coordinate reads: the background outside every block, else its cell in the finest block around it,
    where a block that had to be added holds zeros and is inactive *)
Inductive Reads (g : list level) (c : coord) : V -> bool -> Prop :=
| R_background : (forall i, ~ Blocks g i (coord_to_key T C i c)) -> Reads g c bg false
| R_own i t m n v b : finest g c i -> stored g i (coord_to_key T C i c) t m ->
    coord_to_tile_offset T C i c = Some (Z.of_nat n) -> nth_error t n = Some v -> nth_error m n = Some b -> Reads g c v b
| R_added i : finest g c i -> ~ has_key g i (coord_to_key T C i c) -> Reads g c zero false.

(** the parameters of a grid: static_asserts, and offsets that fit in an int *)
Definition params_ok (n : nat) : Prop :=
  cfg_ok T C /\ 0 < dim /\ length T = n /\
  forall i, i < n -> (ebit T C i <= 30)%Z /\ (hierarchy_bits T C i * Z.of_nat dim <= 31)%Z /\ (tile_bits T i * Z.of_nat dim <= 31)%Z.
(** a level whose arrays have the size of its table *)
Definition level_ok (i : nat) (l : level) : Prop :=
  NoDup (keys V l) /\ Forall (fun k => length k = dim /\ coord_to_key T C i k = k) (keys V l) /\
  length (grid V l) = length (keys V l) /\ Forall (fun t => length t = tsz T dim i) (grid V l) /\
  length (elts (vmask V l)) = length (keys V l) /\ Forall (fun m => length m = tsz T dim i) (elts (vmask V l)) /\
  length (elts (cmask V l)) = length (keys V l) /\
  length (elts (vmask V l)) <= cap (vmask V l) /\ length (elts (cmask V l)) <= cap (cmask V l).
Definition grid_ok (g : list level) : Prop := 2 <= length g /\ params_ok (length g) /\ forall i l, lev g i = Some l -> level_ok i l.
(** any order of insertion, any order of the coarsest blocks *)
Definition orders_ok (sched : nat -> list coord -> list coord) (top : list level -> list nat) : Prop :=
  (forall i l, Permutation (sched i l) l) /\ (forall l r, Permutation (top (l :: r)) (seq 0 (length (keys V l)))).
End Spec.
