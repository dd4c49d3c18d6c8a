(* Specification for C90. *)
From Coq Require Import Reals List.
From Verif Require Import FricModel DgModel.
Import ListNotations.
Local Open Scope R_scope.

(* the sum of the products of corresponding entries *)
Fixpoint weighted (ws xs : list R) : R := match ws, xs with w :: r, x :: s => w * x + weighted r s | _, _ => 0 end.
(* the coordinates of points, one after the other *)
Definition coords (ps : list v3) : list R := flat_map (fun p => [vx p; vy p; vz p]) ps.
Definition coords2 (ps : list v2) : list R := flat_map (fun p => [ux p; uy p]) ps.
(* the point v moving with velocity d *)
Definition moved (v d : v3) (t : R) : v3 := V3 (vx v + t * vx d) (vy v + t * vy d) (vz v + t * vz d).
Definition moved2 (v d : v2) (t : R) : v2 := V2 (ux v + t * ux d) (uy v + t * uy d).
(* row i of an n x n matrix stored row after row *)
Definition row (n i : nat) (m : list R) : list R := firstn n (skipn (n * i) m).
(* g is the list of the partial derivatives of f: f has the derivative g . d in each direction d *)
Definition is_gradient (f : R -> R) (g d : list R) : Prop := length g = length d /\ derivable_pt_lim f 0 (weighted g d).
(* h is the n x n matrix of the partial derivatives of the list g *)
Definition is_jacobian (n : nat) (g : R -> list R) (h d : list R) : Prop :=
  length d = n /\ length h = (n * n)%nat /\ length (g 0) = n /\
  forall i, (i < n)%nat -> derivable_pt_lim (fun t => nth i (g t) 0) 0 (weighted (row n i h) d).
Definition symmetric (n : nat) (m : list R) : Prop := forall i j, (i < n)%nat -> (j < n)%nat -> nth j (row n i m) 0 = nth i (row n j m) 0.
