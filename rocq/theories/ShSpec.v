(** Boxes, grid cells and what it means for them to meet; no reference to the hash table. *)
From Verif Require Import Prelude.
Local Open Scope Z_scope.

(** a box of dimension d with its corners in order *)
Definition box_ok (d : nat) (bv : list Z * list Z) : Prop := length (fst bv) = d /\ length (snd bv) = d /\ Forall2 Z.le (fst bv) (snd bv).
(** in one dimension: cell x is the interval [x dx, (x+1) dx); the interval from mi to ma, open at ma, reaches into it *)
Definition meets (dx mi ma x : Z) : Prop := x * dx < ma /\ mi < (x + 1) * dx.
(** the same, but an interval reduced to one point on a grid line belongs to the cell that starts there *)
Definition meets' (dx mi ma x : Z) : Prop := meets dx mi ma x \/ (mi = ma /\ mi = x * dx).
(** the cells of a box as zpc counts them: the first dimension differs from the others for flat boxes *)
Inductive covers (dx : Z) : list Z * list Z -> list Z -> Prop :=
| Covers mi ma x mis mas xs : meets dx mi ma x -> Forall2 (fun p x => meets' dx (fst p) (snd p) x) (combine mis mas) xs -> length mis = length mas ->
    covers dx (mi :: mis, ma :: mas) (x :: xs).
(** two boxes have an open set in common *)
Definition overlapping (a b : list Z * list Z) : Prop :=
  Forall2 (fun p q => fst p < snd q /\ fst q < snd p /\ fst p < snd p /\ fst q < snd q) (combine (fst a) (snd a)) (combine (fst b) (snd b)).
(** the point p lies in the box; its upper faces do not belong to it *)
Definition inside (p : list Z) (bv : list Z * list Z) : Prop := Forall2 (fun x q => fst q <= x < snd q) p (combine (fst bv) (snd bv)).
(** the point p lies in the box, faces included *)
Definition within (p : list Z) (bv : list Z * list Z) : Prop := Forall2 (fun x q => fst q <= x <= snd q) p (combine (fst bv) (snd bv)).
(** the cell of a point *)
Definition cell_of (dx : Z) (p c : list Z) : Prop := Forall2 (fun x k => k * dx <= x < (k + 1) * dx) p c.
