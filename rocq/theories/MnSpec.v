(** Specification for C99: the normal of a vertex is the normalised sum of the area normals of the triangles at it. *)
From Coq Require Import Reals.
From Verif Require Import Prelude MnModel.
Local Open Scope R_scope.

Definition origin : v3 := V3 0 0 0.
Definition plus (a b : v3) : v3 := V3 (vx a + vx b) (vy a + vy b) (vz a + vz b).
Definition times (c : R) (a : v3) : v3 := V3 (c * vx a) (c * vy a) (c * vz a).
Definition dot (a b : v3) : R := vx a * vx b + vy a * vy b + vz a * vz b.
Definition len (a : v3) : R := sqrt (dot a a).
(** twice the area times the unit normal of a triangle, as a determinant in its corners *)
Definition area_normal (pos : list v3) (t : tri) : v3 :=
  let '(i, j, k) := t in let a := nth i pos origin in let b := nth j pos origin in let c := nth k pos origin in
  V3 ((vy b - vy a) * (vz c - vz a) - (vz b - vz a) * (vy c - vy a))
     ((vz b - vz a) * (vx c - vx a) - (vx b - vx a) * (vz c - vz a))
     ((vx b - vx a) * (vy c - vy a) - (vy b - vy a) * (vx c - vx a)).
Definition corners (t : tri) (v : nat) : R := let '(i, j, k) := t in (if Nat.eqb i v then 1 else 0) + (if Nat.eqb j v then 1 else 0) + (if Nat.eqb k v then 1 else 0).
Definition touches (t : tri) (v : nat) : Prop := let '(i, j, k) := t in i = v \/ j = v \/ k = v.
Definition at_most (n : nat) (t : tri) : Prop := let '(i, j, k) := t in (i < n /\ j < n /\ k < n)%nat.
Definition sum_at (pos : list v3) (tris : list tri) (v : nat) : v3 := fold_right (fun t s => plus (times (corners t v) (area_normal pos t)) s) origin tris.
(** out has the direction of n and length |scale|, turned round if scale is negative *)
Definition directed (n : v3) (scale : R) (out : option v3) : Prop := n <> origin /\ exists u, out = Some u /\ u = times (scale / len n) n.
