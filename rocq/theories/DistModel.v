(* Distances between points, edges and triangles.
   geometry/Distance.hpp and geometry/SpatialQuery.hpp.

   A vec<T, N> is its accessor, as in MatModel.v.  The element type is an
   abstract ordered field: rounding and overflow are not modelled, except that
   the [float] locals of SpatialQuery.hpp are read as values of the element
   type (for double arguments the code rounds them to float).  A division by
   zero, which gives an infinity or a NaN, is None.  The square roots of these
   distances (dist_pp, dist_pt, dist_ee, dist_pt_unclassified, ...) are not
   modelled. *)
From mathcomp Require Import all_ssreflect all_algebra.
From Verif Require Import MatModel.
Set Implicit Arguments.
Unset Strict Implicit.
Unset Printing Implicit Defensive.
Import GRing.Theory Num.Theory Order.TTheory.
Local Open Scope ring_scope.

Section Dist.
Variable T : realFieldType.
Notation vec := (nat -> T).

(* VecInterface.hpp 715-763: the entrywise operators *)
Definition vsub (a b : vec) : vec := fun i => a i - b i.
Definition vadd (a b : vec) : vec := fun i => a i + b i.
Definition vscale (x : T) (a : vec) : vec := fun i => x * a i.

(* x / y *)
Definition quo (x y : T) : option T := if y == 0 then None else Some (x / y).

(* comparisons of a quotient: with a NaN they are false.  (In the functions
   that compare quotients the denominator is zero only when an edge has no
   length or a triangle no normal; the numerator is then zero, too.) *)
Definition qlt (x : option T) (y : T) : bool := if x is Some x then x < y else false.
Definition qgt (x : option T) (y : T) : bool := if x is Some x then x > y else false.
Definition qle (x : option T) (y : T) : bool := if x is Some x then x <= y else false.
Definition qge (x : option T) (y : T) : bool := if x is Some x then x >= y else false.

(* ZpcMathUtils.hpp 296-301, 481-500, 527-546: zs::max and zs::min *)
Definition zmax (x y : T) : T := if x < y then y else x.
Definition zmin (x y : T) : T := if y < x then y else x.

(* ---- Distance.hpp ---- *)

(* Distance.hpp 227-229: dist2_pp *)
Definition dist2_pp (n : nat) (a b : vec) : T := l2NormSqr n (vsub b a).

(* Distance.hpp 240-252: dist_grad_pp; grad(k, d) *)
Definition dist_grad_pp (n : nat) (a b : vec) : nat -> nat -> T :=
  loop n (fun d grad =>
    let v := 2%:R * (a d - b d) in
    mset (mset grad 0 d v) 1 d (- v)) (@mnew T).

(* Distance.hpp 256-268: dist_hess_pp; in dimensions other than 2 and 3 the
   result is the doubled identity *)
Definition dist_hess_pp (n : nat) : nat -> nat -> T :=
  let hess := fun i j : nat => if i == j then 2%:R else 0 in
  let put := fun h (ij : nat * nat) => mset h ij.1 ij.2 (- 2%:R) in
  match n with
  | 2 => foldl put hess [:: (3, 1); (2, 0); (1, 3); (0, 2)]%N
  | 3 => foldl put hess [:: (5, 2); (4, 1); (3, 0); (2, 5); (1, 4); (0, 3)]%N
  | _ => hess
  end.

(* Distance.hpp 1114-1119: pe_distance_type *)
Definition pe_distance_type (n : nat) (p e0 e1 : vec) : nat :=
  let e := vsub e1 e0 in
  let indicator := quo (dot n e (vsub p e0)) (l2NormSqr n e) in
  if qlt indicator 0 then 0%N else if qgt indicator 1 then 1%N else 2%N.

(* Distance.hpp 1132-1134, 1156-1159: the numerator of the distance in 2D *)
Definition pe2_numerator (p e0 e1 : vec) : T :=
  let e := vsub e1 e0 in
  e 1%N * p 0%N - e 0%N * p 1%N + e1 0%N * e0 1%N - e1 1%N * e0 0%N.

(* Distance.hpp 1124-1140: dist2_pe; in dimensions above 3 the result is 0 *)
Definition dist2_pe (n : nat) (p e0 e1 : vec) : option T :=
  match n with
  | 1 =>
      let d0 := p 0%N - e0 0%N in
      let d1 := p 0%N - e1 0%N in
      Some (if d0 * d1 < 0 then 0 else zmin (d0 * d0) (d1 * d1))
  | 2 =>
      let e := vsub e1 e0 in
      let numerator := pe2_numerator p e0 e1 in
      quo (numerator * numerator) (l2NormSqr 2 e)
  | 3 => quo (l2NormSqr 3 (cross3 (vsub e0 p) (vsub e1 p))) (l2NormSqr 3 (vsub e1 e0))
  | _ => Some 0
  end.

(* Distance.hpp 1145-1169: dist2_pe_unclassified; [top] is
   deduce_numeric_max<T>() *)
Definition dist2_pe_unclassified (top : T) (n : nat) (p e0 e1 : vec) : option T :=
  match pe_distance_type n p e0 e1 with
  | 0 => Some (dist2_pp n p e0)
  | 1 => Some (dist2_pp n p e1)
  | _ =>
      match n with
      | 2 =>
          let e := vsub e1 e0 in
          let numerator := pe2_numerator p e0 e1 in
          quo (numerator * numerator) (l2NormSqr 2 e)
      | 3 => quo (l2NormSqr 3 (cross3 (vsub e0 p) (vsub e1 p))) (l2NormSqr 3 (vsub e1 e0))
      | _ => Some top
      end
  end.

(* Distance.hpp 2315-2381: ee_distance_type; [tiny] is 1.0e-20 *)
Definition ee_distance_type (tiny : T) (ea0 ea1 eb0 eb1 : vec) : nat :=
  let u := vsub ea1 ea0 in
  let v := vsub eb1 eb0 in
  let w := vsub ea0 eb0 in
  let a := l2NormSqr 3 u in
  let b := dot 3 u v in
  let c := l2NormSqr 3 v in
  let d := dot 3 u w in
  let e := dot 3 v w in
  let D := a * c - b * b in
  let sN := b * e - c * d in
  let: (tN, tD, defaultCase) :=
    if sN <= 0 then (e, c, 2%N)
    else if sN >= D then (e + b, c, 5%N)
    else
      let tN := a * e - b * d in
      if [&& tN > 0, tN < D
           & (dot 3 (cross3 u v) w == 0) || (l2NormSqr 3 (cross3 u v) < tiny * a * c)]
      then if sN < D / 2%:R then (e, c, 2%N) else (e + b, c, 5%N)
      else (tN, D, 8%N) in
  if tN <= 0 then
    if - d <= 0 then 0%N else if - d >= a then 3%N else 6%N
  else if tN >= tD then
    if - d + b <= 0 then 1%N else if - d + b >= a then 4%N else 7%N
  else defaultCase.

(* Distance.hpp 2386-2392: dist2_ee *)
Definition dist2_ee (ea0 ea1 eb0 eb1 : vec) : option T :=
  let b := cross3 (vsub ea1 ea0) (vsub eb1 eb0) in
  let aTb := dot 3 (vsub eb0 ea0) b in
  quo (aTb * aTb) (l2NormSqr 3 b).

(* Distance.hpp 2397-2435: dist2_ee_unclassified *)
Definition dist2_ee_unclassified (tiny top : T) (ea0 ea1 eb0 eb1 : vec) : option T :=
  match ee_distance_type tiny ea0 ea1 eb0 eb1 with
  | 0 => Some (dist2_pp 3 ea0 eb0)
  | 1 => Some (dist2_pp 3 ea0 eb1)
  | 2 => dist2_pe 3 ea0 eb0 eb1
  | 3 => Some (dist2_pp 3 ea1 eb0)
  | 4 => Some (dist2_pp 3 ea1 eb1)
  | 5 => dist2_pe 3 ea1 eb0 eb1
  | 6 => dist2_pe 3 eb0 ea0 ea1
  | 7 => dist2_pe 3 eb1 ea0 ea1
  | 8 => dist2_ee ea0 ea1 eb0 eb1
  | _ => Some top
  end.

(* Distance.hpp 3883-3906: fillMats and the quotients of determinants *)
Definition mat_cols (c0 c1 c2 : vec) : nat -> nat -> T :=
  fun d j => match j with 0 => c0 d | 1 => c1 d | _ => c2 d end.
Definition pt_params (basis0 basis1 basis2 nVec : vec) : option T * option T :=
  let detD := determinant 3 (mat_cols basis0 basis1 nVec) in
  (quo (determinant 3 (mat_cols basis2 basis1 nVec)) detD,
   quo (determinant 3 (mat_cols basis0 basis2 nVec)) detD).

(* Distance.hpp 3873-3936: pt_distance_type *)
Definition pt_distance_type (p t0 t1 t2 : vec) : nat :=
  let basis0 := vsub t1 t0 in
  let basis1 := vsub t2 t0 in
  let nVec := cross3 basis0 basis1 in
  let: (p00, p01) := pt_params basis0 (cross3 basis0 nVec) (vsub p t0) nVec in
  if [&& qgt p00 0, qlt p00 1 & qge p01 0] then 3%N else
  let basis0 := vsub t2 t1 in
  let: (p10, p11) := pt_params basis0 (cross3 basis0 nVec) (vsub p t1) nVec in
  if [&& qgt p10 0, qlt p10 1 & qge p11 0] then 4%N else
  let basis0 := vsub t0 t2 in
  let: (p20, p21) := pt_params basis0 (cross3 basis0 nVec) (vsub p t2) nVec in
  if [&& qgt p20 0, qlt p20 1 & qge p21 0] then 5%N else
  if qle p00 0 && qge p20 1 then 0%N else
  if qle p10 0 && qge p00 1 then 1%N else
  if qle p20 0 && qge p10 1 then 2%N else 6%N.

(* Distance.hpp 3942-3948: dist2_pt *)
Definition dist2_pt (p t0 t1 t2 : vec) : option T :=
  let b := cross3 (vsub t1 t0) (vsub t2 t0) in
  let aTb := dot 3 (vsub p t0) b in
  quo (aTb * aTb) (l2NormSqr 3 b).

(* Distance.hpp 3953-3984: dist2_pt_unclassified *)
Definition dist2_pt_unclassified (top : T) (p t0 t1 t2 : vec) : option T :=
  match pt_distance_type p t0 t1 t2 with
  | 0 => Some (dist2_pp 3 p t0)
  | 1 => Some (dist2_pp 3 p t1)
  | 2 => Some (dist2_pp 3 p t2)
  | 3 => dist2_pe 3 p t0 t1
  | 4 => dist2_pe 3 p t1 t2
  | 5 => dist2_pe 3 p t2 t0
  | 6 => dist2_pt p t0 t1 t2
  | _ => Some top
  end.

(* Distance.hpp 4025-4063: et_intersected *)
Definition et_intersected (e0 e1 t0 t1 t2 : vec) : bool :=
  let col0 := vsub t1 t0 in
  let col1 := vsub t2 t0 in
  let col2 := vsub e0 e1 in
  let n := cross3 col0 col1 in
  if dot 3 n (vsub e0 t0) * dot 3 n (vsub e1 t0) > 0 then false else
  let det := determinant 3 (mat_cols col0 col1 col2) in
  if det == 0 then false else
  let b := vsub e0 t0 in
  let u := determinant 3 (mat_cols b col1 col2) / det in
  let v := determinant 3 (mat_cols col0 b col2) / det in
  let t := determinant 3 (mat_cols col0 col1 b) / det in
  [&& u >= 0, v >= 0, u + v <= 1, t >= 0 & t <= 1].

(* Distance.hpp 2486-2489: EEM *)
Definition EEM (input eps_x : T) : T :=
  let input_div_eps_x := input / eps_x in
  (- input_div_eps_x + 2%:R) * input_div_eps_x.
(* Distance.hpp 2491-2494: g_EEM *)
Definition g_EEM (input eps_x : T) : T :=
  let one_div_eps_x := 1 / eps_x in
  2%:R * one_div_eps_x * (- one_div_eps_x * input + 1).
(* Distance.hpp 2496-2498: H_EEM *)
Definition H_EEM (input eps_x : T) : T := - 2%:R / (eps_x * eps_x).
(* Distance.hpp 2836-2840: cn2_ee *)
Definition cn2_ee (ea0 ea1 eb0 eb1 : vec) : T :=
  l2NormSqr 3 (cross3 (vsub ea1 ea0) (vsub eb1 eb0)).
(* Distance.hpp 2879-2885: mollifier_threshold_ee; 1e-2 exact *)
Definition mollifier_threshold_ee (ea0 ea1 eb0 eb1 : vec) : T :=
  (100%:R)^-1 * l2NormSqr 3 (vsub ea0 ea1) * l2NormSqr 3 (vsub eb0 eb1).
(* Distance.hpp 2890-2899: mollifier_ee *)
Definition mollifier_ee (ea0 ea1 eb0 eb1 : vec) (eps : T) : T :=
  let c := cn2_ee ea0 ea1 eb0 eb1 in
  if c < eps then EEM c eps else 1.

(* ---- SpatialQuery.hpp ---- *)

Notation "'do' x <- e ; f" := (obind (fun x => f) e)
  (at level 200, x name, e at level 100, f at level 200).

(* SpatialQuery.hpp 26-136: the parameters s and t of dist_pt_sqr *)
Definition pt_st (a00 a01 a11 b0 b1 : T) : option (T * T) :=
  let det := zmax (a00 * a11 - a01 * a01) 0 in
  let s := a01 * b1 - a11 * b0 in
  let t := a01 * b0 - a00 * b1 in
  if s + t <= det then
    if s < 0 then
      if t < 0 then (* region 4 *)
        if b0 < 0 then
          if - b0 >= a00 then Some (1, 0)
          else do s <- quo (- b0) a00; Some (s, 0)
        else if b1 >= 0 then Some (0, 0)
        else if - b1 >= a11 then Some (0, 1)
        else do t <- quo (- b1) a11; Some (0, t)
      else (* region 3 *)
        if b1 >= 0 then Some (0, 0)
        else if - b1 >= a11 then Some (0, 1)
        else do t <- quo (- b1) a11; Some (0, t)
    else if t < 0 then (* region 5 *)
      if b0 >= 0 then Some (0, 0)
      else if - b0 >= a00 then Some (1, 0)
      else do s <- quo (- b0) a00; Some (s, 0)
    else (* region 0 *)
      do s <- quo s det; do t <- quo t det; Some (s, t)
  else if s < 0 then (* region 2 *)
    let tmp0 := a01 + b0 in
    let tmp1 := a11 + b1 in
    if tmp1 > tmp0 then
      let numer := tmp1 - tmp0 in
      let denom := a00 - (a01 + a01) + a11 in
      if numer >= denom then Some (1, 0)
      else do s <- quo numer denom; Some (s, 1 - s)
    else if tmp1 <= 0 then Some (0, 1)
    else if b1 >= 0 then Some (0, 0)
    else do t <- quo (- b1) a11; Some (0, t)
  else if t < 0 then (* region 6 *)
    let tmp0 := a01 + b1 in
    let tmp1 := a00 + b0 in
    if tmp1 > tmp0 then
      let numer := tmp1 - tmp0 in
      let denom := a00 - (a01 + a01) + a11 in
      if numer >= denom then Some (0, 1)
      else do t <- quo numer denom; Some (1 - t, t)
    else if tmp1 <= 0 then Some (1, 0)
    else if b0 >= 0 then Some (0, 0)
    else do s <- quo (- b0) a00; Some (s, 0)
  else (* region 1 *)
    let numer := a11 + b1 - a01 - b0 in
    if numer <= 0 then Some (0, 1)
    else
      let denom := a00 - (a01 + a01) + a11 in
      if numer >= denom then Some (1, 0)
      else do s <- quo numer denom; Some (s, 1 - s).

(* SpatialQuery.hpp 19-139: dist_pt_sqr *)
Definition dist_pt_sqr (n : nat) (p t0 t1 t2 : vec) : option T :=
  let diff := vsub t0 p in
  let e0 := vsub t1 t0 in
  let e1 := vsub t2 t0 in
  do st <- pt_st (dot n e0 e0) (dot n e0 e1) (dot n e1 e1) (dot n diff e0) (dot n diff e1);
  let: (s, t) := st in
  let hitpoint := vadd (vadd t0 (vscale s e0)) (vscale t e1) in
  Some (l2NormSqr n (vsub p hitpoint)).

(* SpatialQuery.hpp 150-294: the category and the parameters of
   pt_category_and_dist2 *)
Definition pt_category (a00 a01 a11 b0 b1 : T) : option (nat * T * T) :=
  let det := zmax (a00 * a11 - a01 * a01) 0 in
  let s := a01 * b1 - a11 * b0 in
  let t := a01 * b0 - a00 * b1 in
  if s + t <= det then
    if s < 0 then
      if t < 0 then (* region 4 *)
        if b0 < 0 then
          if - b0 >= a00 then Some (1%N, 1, 0)
          else do s <- quo (- b0) a00; Some (3%N, s, 0)
        else if b1 >= 0 then Some (0%N, 0, 0)
        else if - b1 >= a11 then Some (2%N, 0, 1)
        else do t <- quo (- b1) a11; Some (5%N, 0, t)
      else (* region 3 *)
        if b1 >= 0 then Some (0%N, 0, 0)
        else if - b1 >= a11 then Some (2%N, 0, 1)
        else do t <- quo (- b1) a11; Some (5%N, 0, t)
    else if t < 0 then (* region 5 *)
      if b0 >= 0 then Some (0%N, 0, 0)
      else if - b0 >= a00 then Some (1%N, 1, 0)
      else do s <- quo (- b0) a00; Some (3%N, s, 0)
    else (* region 0 *)
      do s <- quo s det; do t <- quo t det; Some (6%N, s, t)
  else if s < 0 then (* region 2 *)
    let tmp0 := a01 + b0 in
    let tmp1 := a11 + b1 in
    if tmp1 > tmp0 then
      let numer := tmp1 - tmp0 in
      let denom := a00 - (a01 + a01) + a11 in
      if numer >= denom then Some (1%N, 1, 0)
      else do s <- quo numer denom; Some (4%N, s, 1 - s)
    else if tmp1 <= 0 then Some (2%N, 0, 1)
    else if b1 >= 0 then Some (0%N, 0, 0)
    else do t <- quo (- b1) a11; Some (5%N, 0, t)
  else if t < 0 then (* region 6 *)
    let tmp0 := a01 + b1 in
    let tmp1 := a00 + b0 in
    if tmp1 > tmp0 then
      let numer := tmp1 - tmp0 in
      let denom := a00 - (a01 + a01) + a11 in
      if numer >= denom then Some (2%N, 0, 1)
      else do t <- quo numer denom; Some (4%N, 1 - t, t)
    else if tmp1 <= 0 then Some (1%N, 1, 0)
    else if b0 >= 0 then Some (0%N, 0, 0)
    else do s <- quo (- b0) a00; Some (3%N, s, 0)
  else (* region 1 *)
    let numer := a11 + b1 - a01 - b0 in
    if numer <= 0 then Some (2%N, 0, 1)
    else
      let denom := a00 - (a01 + a01) + a11 in
      if numer >= denom then Some (1%N, 1, 0)
      else do s <- quo numer denom; Some (4%N, s, 1 - s).

(* SpatialQuery.hpp 143-297: pt_category_and_dist2 *)
Definition pt_category_and_dist2 (n : nat) (p t0 t1 t2 : vec) : option (nat * T) :=
  let diff := vsub t0 p in
  let e0 := vsub t1 t0 in
  let e1 := vsub t2 t0 in
  do cst <- pt_category (dot n e0 e0) (dot n e0 e1) (dot n e1 e1) (dot n diff e0) (dot n diff e1);
  let: (cate, s, t) := cst in
  let hitpoint := vadd (vadd t0 (vscale s e0)) (vscale t e1) in
  Some (cate, l2NormSqr n (vsub p hitpoint)).

(* SpatialQuery.hpp 319-374: the parameters sc and tc of dist_ee_sqr; [eps] is
   128 times the machine epsilon *)
Definition ee_st (eps a b c d e : T) : option (T * T) :=
  let D := a * c - b * b in
  let: (sN, sD, tN, tD) :=
    if D < eps then (0, 1, e, c)
    else
      let sN := b * e - c * d in
      let tN := a * e - b * d in
      if sN < 0 then (0, D, e, c)
      else if sN > D then (D, D, e + b, c)
      else (sN, D, tN, D) in
  let: (sN, sD, tN) :=
    if tN < 0 then
      let _d := - d in
      if _d < 0 then (0, sD, 0)
      else if _d > a then (sD, sD, 0)
      else (_d, a, 0)
    else if tN > tD then
      let b_d := - d + b in
      if b_d < 0 then (0, sD, tD)
      else if b_d > a then (sD, sD, tD)
      else (b_d, a, tD)
    else (sN, sD, tN) in
  do sc <- (if `|sN| < eps then Some 0 else quo sN sD);
  do tc <- (if `|tN| < eps then Some 0 else quo tN tD);
  Some (sc, tc).

(* SpatialQuery.hpp 313-378: dist_ee_sqr *)
Definition dist_ee_sqr (eps : T) (n : nat) (ea0 ea1 eb0 eb1 : vec) : option T :=
  let u := vsub ea1 ea0 in
  let v := vsub eb1 eb0 in
  let w := vsub ea0 eb0 in
  do st <- ee_st eps (dot n u u) (dot n u v) (dot n v v) (dot n u w) (dot n v w);
  let: (sc, tc) := st in
  let dP := vsub (vadd w (vscale sc u)) (vscale tc v) in
  Some (l2NormSqr n dP).

(* SpatialQuery.hpp 389-464: the categories and parameters of
   ee_category_and_dist2; [eps] is 16 times the machine epsilon *)
Definition ee_category (eps a b c d e : T) : option (nat * nat * T * T) :=
  let D := a * c - b * b in
  let: (sN, sD, tN, tD, uCate) :=
    if D < eps then (0, 1, e, c, 0%N)
    else
      let sN := b * e - c * d in
      let tN := a * e - b * d in
      if sN < 0 then (0, D, e, c, 0%N)
      else if sN > D then (D, D, e + b, c, 1%N)
      else (sN, D, tN, D, 2%N) in
  let: (sN, sD, tN, uCate, vCate) :=
    if tN <= 0 then
      let _d := - d in
      if _d < 0 then (0, sD, 0, 0%N, 0%N)
      else if _d > a then (sD, sD, 0, 1%N, 0%N)
      else (_d, a, 0, 2%N, 0%N)
    else if tN >= tD then
      let b_d := - d + b in
      if b_d < 0 then (0, sD, tD, 0%N, 1%N)
      else if b_d > a then (sD, sD, tD, 1%N, 1%N)
      else (b_d, a, tD, 2%N, 1%N)
    else (sN, sD, tN, uCate, 2%N) in
  do sc <- (if `|sN| < eps then Some 0 else quo sN sD);
  do tc <- (if `|tN| < eps then Some 0 else quo tN tD);
  Some (uCate, vCate, sc, tc).

(* SpatialQuery.hpp 382-470: ee_category_and_dist2 *)
Definition ee_category_and_dist2 (eps : T) (n : nat) (ea0 ea1 eb0 eb1 : vec) : option (nat * T) :=
  let u := vsub ea1 ea0 in
  let v := vsub eb1 eb0 in
  let w := vsub ea0 eb0 in
  do r <- ee_category eps (dot n u u) (dot n u v) (dot n v v) (dot n u w) (dot n v w);
  let: (uCate, vCate, sc, tc) := r in
  let dP := vsub (vadd w (vscale sc u)) (vscale tc v) in
  Some ((uCate * 3 + vCate)%N, l2NormSqr n dP).
End Dist.
