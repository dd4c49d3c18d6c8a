(* Model of Collider, geometry/Collider.h 10-196: a level set moving with scale s,
   rotation R and translation b, and its effect on the velocity of a point.
   Also the plane and sphere of geometry/AnalyticLevelSet.h 29-40, 143-155.
   Simplifications: exact real arithmetic; 1/s for s = 0 is Coq's total quotient, so
   theorems ask for s <> 0; vectors and matrices are functions of their indices, read
   only below the dimension d; the level set is any pair of functions; the overloads
   that take the material velocity V as an argument are the same with [lvel] constant;
   LevelSetBoundary (201-239) has no behaviour and is left out. *)
From Coq Require Import Reals Arith.
From Verif Require Import CmModel.
Local Open Scope R_scope.

(** Collider.h 8 *)
Inductive collider_e := Sticky | Slip | Separate.
(** the members of Collider (Collider.h 182-193) *)
Record collider := Collider {
  lsd : vec -> R;       (* levelset.getSignedDistance *)
  lnormal : vec -> vec; (* levelset.getNormal *)
  lvel : vec -> vec;    (* levelset.getMaterialVelocity *)
  type : collider_e;
  s : R; dsdt : R;
  Rot : mat; omega : vec;
  b : vec; dbdt : vec }.

(** VecInterface.hpp 922-928 *)
Definition dot (d : nat) (x y : vec) : R := vsum d (fun i => x i * y i).
(** matrix times vector (VecInterface.hpp 787) *)
Definition mulv (d : nat) (M : mat) (x : vec) : vec := fun i => vsum d (fun j => M i j * x j).
(** VecInterface.hpp 446-452 *)
Definition tr (M : mat) : mat := fun i j => M j i.
(* math/Rotation.hpp 339-374: AngularVelocity::cross; in the plane omega is one number *)
Definition across (d : nat) (w x : vec) : vec := fun i =>
  match d, i with
  | 2%nat, 0%nat => - w 0%nat * x 1%nat
  | 2%nat, 1%nat => w 0%nat * x 0%nat
  | 3%nat, 0%nat => w 1%nat * x 2%nat - w 2%nat * x 1%nat
  | 3%nat, 1%nat => w 2%nat * x 0%nat - w 0%nat * x 2%nat
  | 3%nat, 2%nat => w 0%nat * x 1%nat - w 1%nat * x 0%nat
  | _, _ => 0
  end.

(* Collider.h 25-27, 33-35, 40-42: the point in material space *)
Definition material (d : nat) (c : collider) (x : vec) : vec :=
  fun i => mulv d (tr (Rot c)) (fun j => x j - b c j) i * (1 / s c).
(* Collider.h 23-29 *)
Definition query_inside (d : nat) (c : collider) (x : vec) : bool :=
  if Rlt_dec (lsd c (material d c x)) 0 then true else false.
(* Collider.h 30-37 *)
Definition get_velocity (d : nat) (c : collider) (x : vec) : vec := fun i =>
  across d (omega c) (fun j => x j - b c j) i + dsdt c * (1 / s c) * (x i - b c i)
  + mulv d (fun i j => Rot c i j * s c) (lvel c (material d c x)) i + dbdt c i.
(* Collider.h 38-43 *)
Definition get_normal (d : nat) (c : collider) (x : vec) : vec := mulv d (Rot c) (lnormal c (material d c x)).
(* Collider.h 66-76, 101-109: the new velocity *)
Definition respond (d : nat) (t : collider_e) (v_object n v : vec) : vec :=
  match t with
  | Sticky => v_object
  | _ =>
      let v1 : vec := fun i => v i - v_object i in
      let proj := dot d n v1 in
      let slides := match t with Slip => true | _ => if Rlt_dec proj 0 then true else false end in
      fun i => (if slides then v1 i - proj * n i else v1 i) + v_object i
  end.
(* Collider.h 79-113; the answer is whether the point was inside *)
Definition resolve (d : nat) (c : collider) (x v : vec) (erosion : R) : vec * bool :=
  if Rlt_dec (lsd c (material d c x)) (- erosion)
  then (respond d (type c) (get_velocity d c x) (get_normal d c x) v, true)
  else (v, false).
(* Collider.h 44-78: also reports the normal; None: the argument is left as it was *)
Definition resolve_with_normal (d : nat) (c : collider) (x v : vec) (erosion : R) : vec * option vec * bool :=
  if Rlt_dec (lsd c (material d c x)) (- erosion)
  then (respond d (type c) (get_velocity d c x) (get_normal d c x) v, Some (get_normal d c x), true)
  else (v, None, false).

(* AnalyticLevelSet.h 29-40 *)
Definition plane_sd (d : nat) (origin normal x : vec) : R := dot d normal (fun i => x i - origin i).
Definition plane_normal (normal : vec) (x : vec) : vec := normal.
(* AnalyticLevelSet.h 143-152 *)
Definition norm2 (d : nat) (x : vec) : R := dot d x x.
Definition sphere_sd (d : nat) (center : vec) (radius : R) (x : vec) : R :=
  sqrt (norm2 d (fun i => x i - center i)) - radius.
Definition sphere_normal (d : nat) (center x : vec) : vec :=
  let o : vec := fun i => x i - center i in
  if Rlt_dec (norm2 d o) (1 / 10000000) then fun _ => 0 else fun i => o i / sqrt (norm2 d o).
Definition still (x : vec) : vec := fun _ => 0.
