(** What the orientation predicates promise, over the real numbers. *)
From Coq Require Import Reals.
From Flocq Require Import Core.
From Verif Require Import Prelude.
Open Scope R_scope.

(** x is a binary64 number (without bound on the exponent from above) *)
Definition is_double (x : R) : Prop := generic_format radix2 (FLT_exp (-1074) 53) x.
(** x is an integer multiple of 2^k *)
Definition multiple (k : Z) (x : R) : Prop := exists n : Z, x = IZR n * bpow radix2 k.
(** coordinates for which no product underflows: multiples of 2^k *)
Definition coord (k : Z) (x : R) : Prop := is_double x /\ multiple k x.

(** twice the signed area of the triangle a b c *)
Definition area2 (ax ay bx by_ cx cy : R) : R := (ax - cx) * (by_ - cy) - (ay - cy) * (bx - cx).
(** six times the signed volume of the tetrahedron a b c d *)
Definition volume6 (ax ay az bx by_ bz cx cy cz dx dy dz : R) : R :=
  (az - dz) * ((bx - dx) * (cy - dy) - (cx - dx) * (by_ - dy))
  + (bz - dz) * ((cx - dx) * (ay - dy) - (ax - dx) * (cy - dy))
  + (cz - dz) * ((ax - dx) * (by_ - dy) - (bx - dx) * (ay - dy)).

Definition same_sign (x y : R) : Prop := (0 < x <-> 0 < y) /\ (x < 0 <-> y < 0).
Definition total (l : list R) : R := fold_right Rplus 0 l.

(** ** properties of expansions (lists of numbers, smallest first) *)
(** x lies below the lowest bit of y, with [gap] bits between them *)
Definition below (gap : Z) (x y : R) : Prop := x = 0 \/ exists k, Rabs x < bpow radix2 k /\ multiple (k + gap) y.
Definition ascending (gap : Z) (l : list R) : Prop :=
  forall i j, (i < j < length l)%nat -> below gap (nth i l 0) (nth j l 0).
Definition power_of_two (x : R) : Prop := exists k, Rabs x = bpow radix2 k.
(** Predicates.hpp 389-397, after Shewchuk: components do not overlap, and adjacent ones are both powers of two
    (that none is adjacent to two others is left out: the claim is only refuted here) *)
Definition strongly_nonoverlapping (l : list R) : Prop :=
  forall i j, (i < j < length l)%nat -> below 0 (nth i l 0) (nth j l 0) /\
    (below 1 (nth i l 0) (nth j l 0) \/ (power_of_two (nth i l 0) /\ power_of_two (nth j l 0))).
