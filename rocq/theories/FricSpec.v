(* Specification for C88. *)
From Coq Require Import Reals List.
From Verif Require Import FricModel.
Import ListNotations.
Local Open Scope R_scope.

Definition zero : v3 := V3 0 0 0.
(* squared distance of two points *)
Definition dist_sqr (a b : v3) : R := (vx a - vx b)^2 + (vy a - vy b)^2 + (vz a - vz b)^2.
Definition on_line (a b : v3) (t : R) : v3 := vadd a (scal t (vsub b a)).
Definition on_plane (a b c : v3) (t : R * R) : v3 := vadd (vadd a (scal (fst t) (vsub b a))) (scal (snd t) (vsub c a)).
(* the columns are unit vectors, orthogonal to each other and to n *)
Definition orthonormal (b : basis) (n : v3) : Prop :=
  dot (c0 b) (c0 b) = 1 /\ dot (c1 b) (c1 b) = 1 /\ dot (c0 b) (c1 b) = 0 /\ dot (c0 b) n = 0 /\ dot (c1 b) n = 0.
(* sum of the scalar products of corresponding vectors *)
Fixpoint pair_dot (a b : list v3) : R :=
  match a, b with x :: r, y :: s => dot x y + pair_dot r s | _, _ => 0 end.
Fixpoint row_dot (a b : list R) : R :=
  match a, b with x :: r, y :: s => x * y + row_dot r s | _, _ => 0 end.
(* the displacements of the vertices one after the other *)
Definition stack (X : list v3) : list R := flat_map (fun v => [vx v; vy v; vz v]) X.
(* the displacement field X + t D *)
Fixpoint step (X : list v3) (t : R) (D : list v3) : list v3 :=
  match X, D with x :: r, d :: s => vadd x (scal t d) :: step r t s | _, _ => [] end.
(* components of the relative displacement w in the tangent plane, and their squared length *)
Definition tangential (b : basis) (w : v3) : R * R := (dot (c0 b) w, dot (c1 b) w).
Definition len_sqr (u : R * R) : R := fst u * fst u + snd u * snd u.
(* [rel X] is the relative displacement for displacements X of [n] vertices; [force u] and [TT] are
   what the library returns for the stencil. They belong together if TT maps displacements to tangential
   relative displacements, and f1 times the force is the gradient of the friction potential. *)
Definition consistent (n : nat) (b : basis) (rel : list v3 -> v3) (force : R * R -> list v3) (TT : list (list R)) : Prop :=
  (forall X, length X = n ->
     length (force (tangential b (rel X))) = n /\
     exists r0 r1, TT = [r0; r1] /\ length r0 = (3 * n)%nat /\ length r1 = (3 * n)%nat /\
       tangential b (rel X) = (row_dot r0 (stack X), row_dot r1 (stack X))) /\
  (forall eps X D, 0 < eps -> length X = n -> length D = n ->
     derivable_pt_lim (fun t => f0_SF (len_sqr (tangential b (rel (step X t D)))) eps) 0
       (f1_SF (len_sqr (tangential b (rel X))) eps * pair_dot (force (tangential b (rel X))) D)).
