(* Model of geometry/Friction.hpp 9-347: smoothed friction and the contact stencils
   point-point, point-edge, point-triangle and edge-edge.
   Simplifications: exact real arithmetic; quotients by zero are Coq's total ones, the
   theorems exclude them where the code divides; a vec<T,3> is a record, a 3x2 matrix
   the pair of its columns, an nx3 matrix the list of its rows. *)
From Coq Require Import Reals List.
Import ListNotations.
Local Open Scope R_scope.

(** vec<T, 3> as used by Friction.hpp 9-347 *)
Record v3 := V3 { vx : R; vy : R; vz : R }.
(* math/VecInterface.hpp 672-696, 726-739: operators of vec; 922-928: dot; 945-956: cross *)
Definition vadd (a b : v3) : v3 := V3 (vx a + vx b) (vy a + vy b) (vz a + vz b).
Definition vsub (a b : v3) : v3 := V3 (vx a - vx b) (vy a - vy b) (vz a - vz b).
Definition scal (k : R) (a : v3) : v3 := V3 (k * vx a) (k * vy a) (k * vz a).
Definition dot (a b : v3) : R := vx a * vx b + vy a * vy b + vz a * vz b.
Definition cross (a b : v3) : v3 :=
  V3 (vy a * vz b - vz a * vy b) (vz a * vx b - vx a * vz b) (vx a * vy b - vy a * vx b).
(* math/VecInterface.hpp 471-477, 488-494, 506-512 *)
Definition norm_sqr (a : v3) : R := dot a a.
Definition norm (a : v3) : R := sqrt (norm_sqr a).
Definition normalized (a : v3) : v3 := V3 (vx a / norm a) (vy a / norm a) (vz a / norm a).
(* 3x2 matrix; c0 and c1 are its columns *)
Record basis := Basis { c0 : v3; c1 : v3 }.
Definition mulv (b : basis) (u : R * R) : v3 := vadd (scal (fst u) (c0 b)) (scal (snd u) (c1 b)).
(* math/Vec.h 594-603 applied to a vector: the solution of a 2x2 system *)
Definition solve2 (a00 a01 a10 a11 b0 b1 : R) : R * R :=
  let invdet := 1 / (a00 * a11 - a01 * a10) in
  (a11 * invdet * b0 + - a01 * invdet * b1, - a10 * invdet * b0 + a00 * invdet * b1).

(* Friction.hpp 11-17 *)
Definition f0_SF (x2 epsvh : R) : R :=
  if Rle_dec (epsvh * epsvh) x2 then sqrt x2
  else x2 * (- sqrt x2 / 3 + epsvh) / (epsvh * epsvh) + epsvh / 3.
(* 19-25 *)
Definition f1_SF (x2 epsvh : R) : R :=
  if Rle_dec (epsvh * epsvh) x2 then 1 / sqrt x2
  else (- sqrt x2 + 2 * epsvh) / (epsvh * epsvh).
(* 27-30 *)
Definition f2_SF (x2 epsvh : R) : R := -1 / (epsvh * epsvh).

(* ---- point-point ---- *)
(* 33-63 *)
Definition pp_basis (p0 p1 : v3) : basis :=
  let v01 := vsub p1 p0 in
  let xCross := V3 0 (- vz v01) (vy v01) in
  let yCross := V3 (vz v01) 0 (- vx v01) in
  if Rlt_dec (norm_sqr yCross) (norm_sqr xCross)
  then Basis (normalized xCross) (normalized (cross v01 xCross))
  else Basis (normalized yCross) (normalized (cross v01 yCross)).
(* 64-68 *)
Definition pp_rel_dx (dx0 dx1 : v3) : v3 := vsub dx0 dx1.
(* 69-85 *)
Definition pp_to_mesh (u : R * R) (b : basis) : list v3 :=
  let val := mulv b u in [val; scal (-1) val].
(* 86-100: the two rows *)
Definition comps (v : v3) : list R := [vx v; vy v; vz v].
Definition pp_TT (b : basis) : list (list R) :=
  map (fun c => comps c ++ comps (scal (-1) c)) [c0 b; c1 b].

(* ---- point-edge ---- *)
(* 103-111 *)
Definition pe_closest (p v1 v2 : v3) : R :=
  let e12 := vsub v2 v1 in dot (vsub p v1) e12 / norm_sqr e12.
(* 112-131 *)
Definition pe_basis (p v1 v2 : v3) : basis :=
  let v12 := vsub v2 v1 in Basis (normalized v12) (normalized (cross v12 (vsub p v1))).
(* 133-137 *)
Definition pe_rel_dx (dx0 dx1 dx2 : v3) (yita : R) : v3 := vsub dx0 (vadd dx1 (scal yita (vsub dx2 dx1))).
(* 138-156 *)
Definition pe_to_mesh (u : R * R) (b : basis) (yita : R) : list v3 :=
  let val := mulv b u in [val; scal (yita - 1) val; scal (- yita) val].
(* 157-172 *)
Definition pe_TT (b : basis) (yita : R) : list (list R) :=
  map (fun c => comps c ++ comps (scal (yita - 1) c) ++ comps (scal (- yita) c)) [c0 b; c1 b].

(* ---- point-triangle ---- *)
(* 175-196 *)
Definition pt_closest (p v1 v2 v3' : v3) : R * R :=
  let r0 := vsub v2 v1 in let r1 := vsub v3' v1 in
  solve2 (dot r0 r0) (dot r0 r1) (dot r1 r0) (dot r1 r1) (dot r0 (vsub p v1)) (dot r1 (vsub p v1)).
(* 197-216 *)
Definition pt_basis (p v1 v2 v3' : v3) : basis :=
  let v12 := vsub v2 v1 in
  Basis (normalized v12) (normalized (cross (cross v12 (vsub v3' v1)) v12)).
(* 217-223 *)
Definition pt_rel_dx (dx0 dx1 dx2 dx3 : v3) (beta1 beta2 : R) : v3 :=
  vsub dx0 (vadd (vadd dx1 (scal beta1 (vsub dx2 dx1))) (scal beta2 (vsub dx3 dx1))).
(* 224-244 *)
Definition pt_to_mesh (u : R * R) (b : basis) (beta1 beta2 : R) : list v3 :=
  let val := mulv b u in [val; scal (-1 + beta1 + beta2) val; scal (- beta1) val; scal (- beta2) val].
(* 245-261 *)
Definition pt_TT (b : basis) (beta1 beta2 : R) : list (list R) :=
  map (fun c => comps c ++ comps (scal (-1 + beta1 + beta2) c) ++ comps (scal (- beta1) c) ++ comps (scal (- beta2) c))
    [c0 b; c1 b].

(* ---- edge-edge ---- *)
(* 264-287 *)
Definition ee_closest (v0 v1 v2 v3' : v3) : R * R :=
  let e20 := vsub v0 v2 in let e01 := vsub v1 v0 in let e23 := vsub v3' v2 in
  solve2 (norm_sqr e01) (- dot e23 e01) (- dot e23 e01) (norm_sqr e23) (- dot e20 e01) (dot e20 e23).
(* 288-307 *)
Definition ee_basis (v0 v1 v2 v3' : v3) : basis :=
  let v01 := vsub v1 v0 in
  Basis (normalized v01) (normalized (cross (cross v01 (vsub v3' v2)) v01)).
(* 308-313 *)
Definition ee_rel_dx (dx0 dx1 dx2 dx3 : v3) (gamma1 gamma2 : R) : v3 :=
  vsub (vadd dx0 (scal gamma1 (vsub dx1 dx0))) (vadd dx2 (scal gamma2 (vsub dx3 dx2))).
(* 314-333 *)
Definition ee_to_mesh (u : R * R) (b : basis) (gamma1 gamma2 : R) : list v3 :=
  let val := mulv b u in [scal (1 - gamma1) val; scal gamma1 val; scal (gamma2 - 1) val; scal (- gamma2) val].
(* 334-347 *)
Definition ee_TT (b : basis) (gamma1 gamma2 : R) : list (list R) :=
  map (fun c => comps (scal (1 - gamma1) c) ++ comps (scal gamma1 c) ++ comps (scal (gamma2 - 1) c) ++ comps (scal (- gamma2) c))
    [c0 b; c1 b].
