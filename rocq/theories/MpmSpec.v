(** Conserved quantities of particles and of the grid, independent of the
    transfer code.  A particle is a small body of mass m and second moment
    m dx^2/4 per axis, moving with velocity v + A (x - x_p), where A (row i,
    column j) is stored column by column: A i j = C (i + 3 j). *)
From Coq Require Import QArith.
From Verif Require Import Prelude KernSpec.
From Verif Require MpmModel.
Import MpmModel(vec, particle, pm, px, pv, pC, pJ, pF, mem).
Open Scope Q_scope.

Definition total {A} (f : A -> Q) (l : list A) : Q := qsum (map f l).
Definition mass (ps : list particle) : Q := total pm ps.
Definition momentum (d : nat) (ps : list particle) : Q := total (fun p => pm p * pv p d) ps.
(** the two axes that follow axis d *)
Definition nxt (d : nat) : nat := Nat.modulo (d + 1) 3.
Definition nxt2 (d : nat) : nat := Nat.modulo (d + 2) 3.
Definition crossd (x y : vec) (d : nat) : Q := x (nxt d) * y (nxt2 d) - x (nxt2 d) * y (nxt d).
Definition affine_of (p : particle) (i j : nat) : Q := pC p (i + 3 * j)%nat.
(** x cross m v plus the spin of the affine motion *)
Definition spin (p : particle) (d : nat) : Q := affine_of p (nxt2 d) (nxt d) - affine_of p (nxt d) (nxt2 d).
Definition angular (dx : Q) (d : nat) (ps : list particle) : Q :=
  total (fun p => pm p * (crossd (px p) (pv p) d + dx * dx * (1#4) * spin p d)) ps.

(** sums over the cells of a grid *)
Definition grid_total (m : mem) (ch : nat) (slots : list (Z * Z)) : Q :=
  total (fun s => m (fst s) ch (snd s)) slots.
Definition grid_torque (m : mem) (ch0 d : nat) (pos : Z -> Z -> vec) (slots : list (Z * Z)) : Q :=
  total (fun s => crossd (pos (fst s) (snd s)) (fun e => m (fst s) (ch0 + e)%nat (snd s)) d) slots.
(** a symmetric 3x3 matrix *)
Definition symmetric (C : vec) : Prop := forall i j, (i < 3)%nat -> (j < 3)%nat -> C (i + 3 * j)%nat == C (j + 3 * i)%nat.
