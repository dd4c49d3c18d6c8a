(* Analytic level sets and bounding volumes: signed distances of planes, boxes,
   spheres and cylinders, overlap and merge of boxes, broad phase of the
   continuous collision detection, ray tests.
   geometry/AnalyticLevelSet.h, geometry/BoundingVolumeInterface.hpp.

   Vectors are accessors (see MatModel); numbers are exact elements of a real
   closed field: rounding and overflow are not modelled, except that
   ray_box_intersect divides by zero on purpose, so it computes with infinities
   and NaN as IEEE 754 prescribes.  do_getNormal of boxes and cylinders is not
   modelled (it calls getSignedDistance of a dependent base class without
   this->, which does not compile). *)
From mathcomp Require Import all_ssreflect all_algebra.
From Verif Require Import MatModel DistModel.
Set Implicit Arguments.
Unset Strict Implicit.
Unset Printing Implicit Defensive.
Import Order.TTheory GRing.Theory Num.Theory.
Local Open Scope ring_scope.

Section Als.
Variable T : rcfType.
Notation vec := (nat -> T).

(* VecInterface.hpp 592-598: abs *)
Definition vabs (a : vec) : vec := fun i => if a i > 0 then a i else - a i.
(* VecInterface.hpp 514-520: max; the loop starts at 1 *)
Definition vmax (n : nat) (a : vec) : T :=
  loop n.-1 (fun i res => if a i.+1 > res then a i.+1 else res) (a 0%N).
(* VecInterface.hpp 489-494: length *)
Definition length (n : nat) (a : vec) : T := Num.sqrt (l2NormSqr n a).
(* VecInterface.hpp 506-512: normalized *)
Definition normalized (n : nat) (a : vec) : option vec :=
  let len := length n a in
  if len == 0 then None else Some (fun i => a i / len).

(* ---- AnalyticLevelSet<Plane> ---- *)
(* AnalyticLevelSet.h 29-32 *)
Definition plane_sd (n : nat) (origin normal x : vec) : T := dot n normal (vsub x origin).
(* AnalyticLevelSet.h 41-43 *)
Definition plane_box (origin : vec) : vec * vec := (origin, origin).

(* ---- AnalyticLevelSet<Cuboid> ---- *)
(* AnalyticLevelSet.h 75-78: the box around a center *)
Definition cuboid_of (center : vec) (len : T) : vec * vec :=
  (fun i => center i - len / 2%:R, fun i => center i + len / 2%:R).
(* AnalyticLevelSet.h 91-92, 297-298: distance to the center beyond the half
   extents *)
Definition beyond (mi ma x : vec) : vec :=
  let center := fun i => (mi i + ma i) / 2%:R in
  fun i => vabs (vsub x center) i - (ma i - mi i) / 2%:R.
(* AnalyticLevelSet.h 89-97 *)
Definition cuboid_sd (n : nat) (mi ma x : vec) : T :=
  let point := beyond mi ma x in
  let max := vmax n point in
  let point := loop n (fun i p => if p i < 0 then vset p i 0 else p) point in
  (if max < 0 then max else 0) + length n point.
(* AnalyticLevelSet.h 292-306: distance(box, p); [lowest] is the lowest number *)
Definition box_distance (lowest : T) (n : nat) (mi ma p : vec) : T :=
  let: (max, point) :=
    loop n (fun d mp =>
      let: (max, point) := mp in
      let max := if point d > max then point d else max in
      let point := if point d < 0 then vset point d 0 else point in
      (max, point)) (lowest, beyond mi ma p) in
  (if max < 0 then max else 0) + length n point.

(* ---- AnalyticLevelSet<Sphere> ---- *)
(* AnalyticLevelSet.h 143-146 *)
Definition sphere_sd (n : nat) (center : vec) (radius : T) (x : vec) : T :=
  length n (vsub x center) - radius.
(* AnalyticLevelSet.h 147-152; [tol] is 1e-7 *)
Definition sphere_normal (tol : T) (n : nat) (center x : vec) : option vec :=
  let outward := vsub x center in
  if l2NormSqr n outward < tol then Some (fun _ => 0) else normalized n outward.
(* AnalyticLevelSet.h 157-159 *)
Definition sphere_box (center : vec) (radius : T) : vec * vec :=
  (fun i => center i - radius, fun i => center i + radius).

(* ---- AnalyticLevelSet<Cylinder> ---- *)
(* AnalyticLevelSet.h 189-191: the components across the axis *)
Definition across (bottom : vec) (d : nat) (x : vec) : vec :=
  (loop 3 (fun k ir =>
    let: (i, r) := ir in
    if k != d then (i.+1, vset r i (x k - bottom k)) else ir) (0%N, @vnew T)).2.
(* AnalyticLevelSet.h 187-215 *)
Definition cylinder_sd (bottom : vec) (radius len : T) (d : nat) (x : vec) : T :=
  let disR := Num.sqrt (l2NormSqr 2 (across bottom d x)) in
  let outside := disR > radius in
  if x d < bottom d then
    let disL := bottom d - x d in
    if outside then Num.sqrt ((disR - radius) * (disR - radius) + disL * disL) else disL
  else if x d > bottom d + len then
    let disL := x d - (bottom d + len) in
    if outside then Num.sqrt ((disR - radius) * (disR - radius) + disL * disL) else disL
  else if outside then disR - radius
  else
    let disL := zmin (bottom d + len - x d) (x d - bottom d) in
    - zmin disL (radius - disR).
(* AnalyticLevelSet.h 234-240 *)
Definition cylinder_box (bottom : vec) (radius len : T) (d : nat) : vec * vec :=
  let diffR := vset (fun _ => radius) d 0 in
  let diffL := vset (fun _ => 0) d len in
  (vsub bottom diffR, vadd (vadd bottom diffR) diffL).

(* ---- bounding boxes ---- *)
(* AnalyticLevelSet.h 262-266: overlaps of two boxes; the loop leaves at the
   first separating dimension *)
Definition overlaps (n : nat) (a b : vec * vec) : bool :=
  all (fun d => ~~ ((b.1 d > a.2 d) || (b.2 d < a.1 d))) (iota 0 n).
(* AnalyticLevelSet.h 268-278: overlaps of a point and a box *)
Definition overlaps_point (n : nat) (p : vec) (b : vec * vec) : bool :=
  all (fun d => ~~ ((b.1 d > p d) || (b.2 d < p d))) (iota 0 n).
(* AnalyticLevelSet.h 282-290: merge *)
Definition merge (n : nat) (box : vec * vec) (p : vec) : vec * vec :=
  loop n (fun d box => (vset box.1 d (zmin (box.1 d) (p d)), vset box.2 d (zmax (box.2 d) (p d)))) box.
(* BoundingVolumeInterface.hpp 44-54: get_bounding_box *)
Definition get_bounding_box (a b : vec) : vec * vec :=
  (fun i => if a i < b i then a i else b i, fun i => if a i > b i then a i else b i).
(* BoundingVolumeInterface.hpp 24-32: getUniformCoord; math::clamp is
   ZpcMathUtils.hpp 305-308 *)
Definition clamp (x a b : T) : T := if x < a then a else if b < x then b else x.
Definition uniform_coord (box : vec * vec) (pos : vec) (d : nat) : option T :=
  quo (clamp (pos d - box.1 d) 0 (box.2 d - box.1 d)) (box.2 d - box.1 d).

(* x + toc * dx *)
Definition moved (toc : T) (x dx : vec) : vec := vadd x (vscale toc dx).
(* AnalyticLevelSet.h 312-331: pt_ccd_broadphase *)
Definition pt_ccd_broadphase (n : nat) (p t0 t1 t2 dp dt0 dt1 dt2 : vec) (dist toc : T) : bool :=
  let pbv := get_bounding_box p (moved toc p dp) in
  let tbv := get_bounding_box t0 (moved toc t0 dt0) in
  let tbv := merge n tbv t1 in
  let tbv := merge n tbv (moved toc t1 dt1) in
  let tbv := merge n tbv t2 in
  let tbv := merge n tbv (moved toc t2 dt2) in
  let pbv := (fun i => pbv.1 i - dist, fun i => pbv.2 i + dist) in
  overlaps n pbv tbv.
(* AnalyticLevelSet.h 333-352: ee_ccd_broadphase *)
Definition ee_ccd_broadphase (n : nat) (ea0 ea1 eb0 eb1 dea0 dea1 deb0 deb1 : vec) (dist toc : T) : bool :=
  let abv := get_bounding_box ea0 (moved toc ea0 dea0) in
  let bbv := get_bounding_box eb0 (moved toc eb0 deb0) in
  let abv := merge n abv ea1 in
  let abv := merge n abv (moved toc ea1 dea1) in
  let bbv := merge n bbv eb1 in
  let bbv := merge n bbv (moved toc eb1 deb1) in
  let abv := (fun i => abv.1 i - dist, fun i => abv.2 i + dist) in
  overlaps n abv bbv.

(* AnalyticLevelSet.h 354-383: ray_tri_intersect; None is infinity, [eps] ten
   times the machine epsilon.  d = 0 is impossible: then n = 0 and b = 0. *)
Definition ray_tri_intersect (eps : T) (ro rd v0 v1 v2 : vec) : option T :=
  let u := vsub v1 v0 in
  let v := vsub v2 v0 in
  let n := cross3 u v in
  let b := dot 3 n rd in
  if `|b| > eps then
    let a := dot 3 n (vsub v0 ro) in
    let r := a / b in
    let ip := vadd ro (vscale r rd) in
    let uu := dot 3 u u in
    let uv := dot 3 u v in
    let vv := dot 3 v v in
    let w := vsub ip v0 in
    let wu := dot 3 w u in
    let wv := dot 3 w v in
    let d := uv * uv - uu * vv in
    let s := uv * wv - vv * wu in
    let t := uv * wu - uu * wv in
    let d := 1 / d in
    let s := s * d in
    let t := t * d in
    if [&& - eps <= s, s <= 1 + eps, - eps <= t & s + t <= 1 + eps * 2%:R] then Some r else None
  else None.

(* ---- IEEE numbers with infinities ---- *)
Inductive ext := Fin (x : T) | PInf | NInf | NaN.
(* 1 / x; [neg] tells -0.0 from 0.0 *)
Definition einv (x : T) (neg : bool) : ext :=
  if x == 0 then if neg then NInf else PInf else Fin (x^-1).
(* x * y *)
Definition emul (x : T) (y : ext) : ext :=
  match y with
  | Fin y => Fin (x * y)
  | PInf => if x > 0 then PInf else if x < 0 then NInf else NaN
  | NInf => if x > 0 then NInf else if x < 0 then PInf else NaN
  | NaN => NaN
  end.
(* x < y *)
Definition elt (x y : ext) : bool :=
  match x, y with
  | Fin x, Fin y => x < y
  | NInf, (Fin _ | PInf) => true
  | Fin _, PInf => true
  | _, _ => false
  end.
(* x >= 0 *)
Definition ege0 (x : ext) : bool := match x with Fin x => x >= 0 | PInf => true | _ => false end.

(* AnalyticLevelSet.h 385-412: ray_box_intersect; [neg i] is the sign of a zero
   rd[i] *)
Definition ray_box_intersect (ro rd : vec) (neg : nat -> bool) (box : vec * vec) : bool :=
  let invd := fun i => einv (rd i) (neg i) in
  let sign := fun i => elt (invd i) (Fin 0) in
  let lo := fun i => emul ((if sign i then box.2 else box.1) i - ro i) (invd i) in
  let hi := fun i => emul ((if sign i then box.1 else box.2) i - ro i) (invd i) in
  let tmin := lo 0%N in
  let tmax := hi 0%N in
  let tymin := lo 1%N in
  let tymax := hi 1%N in
  if elt tymax tmin || elt tmax tymin then false else
  let tmin := if elt tmin tymin then tymin else tmin in
  let tmax := if elt tymax tmax then tymax else tmax in
  let tzmin := lo 2%N in
  let tzmax := hi 2%N in
  if elt tzmax tmin || elt tmax tzmin then false else
  let tmax := if elt tzmax tmax then tzmax else tmax in
  ege0 tmax.

(* ---- bounding spheres ---- *)
(* AnalyticLevelSet.h 418-423: overlaps of two spheres *)
Definition spheres_overlap (n : nat) (ca : vec) (ra : T) (cb : vec) (rb : T) : bool :=
  let radius := ra + rb in
  l2NormSqr n (vsub ca cb) <= radius * radius.
(* AnalyticLevelSet.h 425-435: overlaps of a point and a sphere *)
Definition sphere_has (n : nat) (c : vec) (r : T) (p : vec) : bool :=
  l2NormSqr n (vsub p c) <= r * r.
End Als.
