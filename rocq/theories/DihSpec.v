(* Specification for C89. *)
From Coq Require Import Reals List.
From Verif Require Import FricModel FricSpec DihModel.
Import ListNotations.
Local Open Scope R_scope.

(* the point v moving with velocity d *)
Definition moved (v d : v3) (t : R) : v3 := vadd v (scal t d).
(* a matrix applied to a vector, and a row of blocks to as many vectors *)
Definition apply (m : m3) (d : v3) : v3 := V3 (dot (r0 m) d) (dot (r1 m) d) (dot (r2 m) d).
Fixpoint apply_row (ms : list m3) (ds : list v3) : v3 :=
  match ms, ds with m :: r, d :: s => vadd (apply m d) (apply_row r s) | _, _ => zero end.
(* the derivative at 0 of a vector depending on t *)
Definition derivative (f : R -> v3) (f' : v3) : Prop :=
  derivable_pt_lim (fun t => vx (f t)) 0 (vx f') /\ derivable_pt_lim (fun t => vy (f t)) 0 (vy f') /\
  derivable_pt_lim (fun t => vz (f t)) 0 (vz f').
