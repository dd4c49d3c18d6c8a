(* Signed distances of analytic level sets (C74) and bounding volumes (C75). *)
From mathcomp Require Import all_ssreflect all_algebra.
From Coq Require Import Field.
From Verif Require Import FieldTac NraTac MatModel DistModel AlsModel DistSpec AlsSpec.
From Verif Require Import DistProofs2 DistProofs6 AlsProofs AlsProofs2 AlsProofs3 AlsProofs4 AlsProofs5 AlsProofs6.
Set Implicit Arguments.
Unset Strict Implicit.
Unset Printing Implicit Defensive.
Import Order.TTheory GRing.Theory Num.Theory.
Local Open Scope ring_scope.

Section Props.
Variable T : rcfType.
Let F : fieldType := [fieldType of T].
Add Field ffd : (cfield F).
Ltac fld := to_fld F; field.
Ltac lra := flra_ T.
Notation vec := (nat -> T).

(* ---- C74 ---- *)
(* the level set of a plane with a unit normal *)
Theorem C74_plane_partial (n : nat) (o m x : vec) : inner n m m = 1 ->
  signed_distance n (in_half n o m) (on_plane n o m) x (plane_sd n o m x).
Proof. by move=> h; rewrite plane_sdE; exact: plane_ok. Qed.
(* the normal is not normalised: with any other length the value is not the
   distance *)
Theorem C74_plane_refuted : exists o m x : vec,
  (exists2 i, (i < 3)%N & m i <> 0) /\
  ~ signed_distance 3 (in_half 3 o m) (on_plane 3 o m) x (plane_sd 3 o m x).
Proof.
exists (fun=> 0), (pt3 2%:R 0 0), (pt3 1 0 0); split.
  by exists 0%N => //=; apply/eqP; rewrite pnatr_eq0.
have v : plane_sd 3 (fun=> 0) (pt3 2%:R 0 0) (pt3 1 0 0 : vec) = 2%:R.
  rewrite plane_sdE /inner !big_ord_recr big_ord0 /=; by fld.
rewrite v => -[_ []].
  rewrite /in_half -plane_sdE v; apply/negP; by rewrite -ltNge ltr0n.
move=> _ [_ /(_ _ (fun=> 0) erefl)].
have -> : dist2 3 (pt3 1 0 0) (fun=> 0) = 1 :> T.
  rewrite /dist2 !big_ord_recr big_ord0 /= !expr2; by fld.
have h : in_half 3 (fun=> 0) (pt3 2%:R 0 0) (fun=> 0 : T).
  by rewrite /in_half /inner big1 // => i _; rewrite subrr mulr0.
by move/(_ h); rewrite -natrX lern1.
Qed.
(* the solid box, inside and outside *)
Theorem C74_cuboid (n : nat) (mi ma x : vec) : (0 < n)%N -> box_ok n (mi, ma) ->
  signed_distance n (in_box n (mi, ma)) (box_boundary n (mi, ma)) x (cuboid_sd n mi ma x).
Proof. exact: cuboid_ok. Qed.
(* distance(box, p) returns the same; the largest number is assumed to exceed
   the extents of the box *)
Theorem C74_box_distance (lowest : T) (n : nat) (mi ma x : vec) : (0 < n)%N -> box_ok n (mi, ma) ->
  (forall i, (i < n)%N -> lowest <= mi i - ma i) ->
  signed_distance n (in_box n (mi, ma)) (box_boundary n (mi, ma)) x (box_distance lowest n mi ma x).
Proof.
move=> n0 ok low; rewrite box_distanceE //; first exact: cuboid_ok.
move=> i il; apply: le_trans (low i il) _.
rewrite ler_pdivl_mulr ?ltr0n // mulr_natr mulr2n ger_addl subr_le0; exact: ok.
Qed.
(* the box around a center *)
Theorem C74_cuboid_of (n : nat) (c : vec) (len : T) (x : vec) :
  in_box n (cuboid_of c len) x <-> forall i, (i < n)%N -> `|x i - c i| <= len / 2%:R.
Proof.
by split=> h i il; have := h i il; rewrite /= ler_distl.
Qed.
(* the solid ball *)
Theorem C74_sphere (n : nat) (c : vec) (r : T) (x : vec) : (0 < n)%N -> 0 <= r ->
  signed_distance n (in_ball n c r) (on_sphere n c r) x (sphere_sd n c r x).
Proof. exact: sphere_ok. Qed.
(* its normal: a unit vector along which the signed distance grows at unit
   speed, and zero close to the center *)
Theorem C74_sphere_normal (tol : T) (n : nat) (c : vec) (r : T) (x : vec) : 0 < tol ->
  exists2 m, sphere_normal tol n c x = Some m &
  if dist2 n x c < tol then forall i, m i = 0 else
  inner n m m = 1 /\
  forall h, 0 <= h -> sphere_sd n c r (fun i => x i + h * m i) = sphere_sd n c r x + h.
Proof.
move=> t0; rewrite /sphere_normal l2E -dist2E; case: ltrP => c0; first by eexists.
have d0 : 0 < dist2 n x c by exact: lt_le_trans c0.
have l0 : 0 < length n (vsub x c) by rewrite lengthE sqrtr_gt0.
rewrite /normalized gt_eqF //; eexists; first reflexivity.
have ln := lt0r_neq0 l0.
set m := fun i => _ : T.
have unit : inner n m m = 1.
  have -> : inner n m m = dist2 n x c / length n (vsub x c) ^+ 2.
    rewrite /dist2 mulr_suml; apply: eq_bigr => i _.
    rewrite /m /vsub !expr2; move/eqP: ln => ln; by fld.
  by rewrite length_sqr divff // sqrf_eq0.
split=> // h h0; rewrite /sphere_sd addrAC; congr (_ - _).
rewrite [in LHS]lengthE.
have -> : dist2 n (fun i => x i + h * m i) c = (length n (vsub x c) + h) ^+ 2 * inner n m m.
  rewrite /inner mulr_sumr; apply: eq_bigr => i _; rewrite expr2.
  have -> : x i + h * m i - c i = (length n (vsub x c) + h) * m i.
    rewrite mulrDl; have -> : length n (vsub x c) * m i = x i - c i by rewrite /m mulrC divfK.
    by fld.
  by rewrite expr2; fld.
by rewrite unit mulr1 sqrtr_sqr ger0_norm // addr_ge0 // ltW.
Qed.
(* the solid cylinder, along any of the axes *)
Theorem C74_cylinder (b : vec) (r l : T) (d : nat) (x : vec) : (d < 3)%N -> 0 <= r -> 0 <= l ->
  signed_distance 3 (in_cylinder b r l d) (cylinder_boundary b r l d) x (cylinder_sd b r l d x).
Proof. by move=> h k q; exact: cylinder_ok. Qed.
(* the bounding boxes are the smallest *)
Theorem C74_sphere_box (n : nat) (c : vec) (r : T) : 0 <= r ->
  bounds n (in_ball n c r) (sphere_box c r).
Proof. exact: ball_bounds. Qed.
Theorem C74_cylinder_box (b : vec) (r l : T) (d : nat) : (d < 3)%N -> 0 <= r -> 0 <= l ->
  bounds 3 (in_cylinder b r l d) (cylinder_box b r l d).
Proof.
move=> dl r0 l0; apply: bounds_ext (cylinder_bounds b dl r0 l0) => i il.
rewrite /cylinder_box /vsub /vadd /vset /=.
by case: eqP => _; rewrite ?subr0 ?addr0.
Qed.
(* but the box of a plane is its origin *)
Theorem C74_plane_box_refuted : exists o m : vec, inner 3 m m = 1 /\
  exists2 x, on_plane 3 o m x & ~ in_box 3 (plane_box o) x.
Proof.
exists (fun=> 0), (pt3 1 0 0); split.
  rewrite /inner !big_ord_recr big_ord0 /=; by fld.
exists (pt3 0 1 0).
  rewrite /on_plane /inner !big_ord_recr big_ord0 /=; by fld.
by move/(_ 1%N isT); rewrite /= ler10 andbF.
Qed.
(* a point inside the box, one outside beyond an edge; a point in the corner
   region of a cylinder *)
Example C74_cuboid_ex :
  [/\ cuboid_sd 2 (pt3 0 0 0) (pt3 8%:R 4%:R 0) (pt3 5%:R 3%:R 0) = - 1 :> T,
      cuboid_sd 2 (pt3 0 0 0) (pt3 8%:R 4%:R 0) (pt3 11%:R 8%:R 0) = 5%:R :> T,
      box_distance (- 100%:R) 2 (pt3 0 0 0) (pt3 8%:R 4%:R 0) (pt3 11%:R 8%:R 0) = 5%:R :> T,
      sphere_sd 3 (pt3 1 2%:R 3%:R) 2%:R (pt3 1 (- 1) 7%:R) = 3%:R :> T &
      cylinder_sd (pt3 0 0 0) 5%:R 2%:R 2 (pt3 8%:R 0 6%:R) = 5%:R :> T].
Proof.
have sq (k : nat) (a : T) : a = (k * k)%:R -> Num.sqrt a = k%:R.
  by move=> ->; rewrite natrM -expr2 sqrtr_sqr ger0_norm // ler0n.
have cub (x0 x1 : T) (a b : T) :
  excess 0 8%:R x0 = a -> excess 0 4%:R x1 = b ->
  cuboid_sd 2 (pt3 0 0 0) (pt3 8%:R 4%:R 0) (pt3 x0 x1 0)
  = (let m := if a < b then b else a in if m < 0 then m else 0) + Num.sqrt (pos a * pos a + pos b * pos b).
  have vm (a' : vec) : vmax 2 a' = if a' 0%N < a' 1%N then a' 1%N else a' 0%N by [].
  move=> ea eb; rewrite /cuboid_sd vm !beyondE [pt3 _ _ _ 0%N]/= ea eb; congr (_ + _).
  rewrite /length l2E /sdot !big_ord_recr big_ord0 !clampE !beyondE /= ea eb add0r.
  by rewrite /pos /zmax; congr (Num.sqrt (_ + _)); [case: (ltrgt0P a)|case: (ltrgt0P b)] => // ->.
have ex (mi ma x a : T) : (mi - x < x - ma -> a = x - ma) -> (x - ma <= mi - x -> a = mi - x) -> excess mi ma x = a.
  by move=> h k; rewrite /excess /zmax; case: ltrP => c; rewrite -?(h c) -?(k c).
have e1 : excess 0 8%:R (5%:R : T) = - 3%:R by apply: ex => c; lra.
have e2 : excess 0 4%:R (3%:R : T) = - 1 by apply: ex => c; lra.
have e3 : excess 0 8%:R (11%:R : T) = 3%:R by apply: ex => c; lra.
have e4 : excess 0 4%:R (8%:R : T) = 4%:R by apply: ex => c; lra.
have big : cuboid_sd 2 (pt3 0 0 0) (pt3 8%:R 4%:R 0) (pt3 11%:R 8%:R 0) = 5%:R :> T.
  rewrite (cub _ _ _ _ e3 e4) /= !ltr_nat /= ltrn0 add0r /pos /zmax !ltr0n /=.
  by apply: sq; fld.
split=> //.
- rewrite (cub _ _ _ _ e1 e2) /= ltr_opp2 ltr1n /= oppr_lt0 ltr01 /pos /zmax !oppr_gt0 ltrn0 ltr10.
  by rewrite mulr0 addr0 sqrtr0 addr0.
- rewrite box_distanceE //; case=> [|[|//]] _ /=.
    by rewrite ler_pdivl_mulr ?ltr0n //; lra.
  by rewrite ler_pdivl_mulr ?ltr0n //; lra.
- rewrite /sphere_sd /length l2E sdot3 /vsub /= (sq 5%N); by fld.
- rewrite /cylinder_sd acrossE // (sq 8%N) /=; last first.
    rewrite radialE // /dist2 !big_ord_recr big_ord0 /flat /ax /= !expr2; by fld.
  rewrite ltr_nat /= ltrn0 add0r ltr_nat /=; apply: sq; by fld.
Qed.

(* ---- C75 ---- *)
(* two boxes overlap iff they have a common point *)
Theorem C75_overlaps (n : nat) (a b : vec * vec) : box_ok n a -> box_ok n b ->
  overlaps n a b <-> exists x, in_box n a x /\ in_box n b x.
Proof. exact: overlapsP. Qed.
Theorem C75_overlaps_point (n : nat) (p : vec) (b : vec * vec) :
  overlaps_point n p b <-> in_box n b p.
Proof. exact: overlaps_pointP. Qed.
(* two balls overlap iff they have a common point *)
Theorem C75_spheres_overlap (n : nat) (ca cb : vec) (ra rb : T) : 0 <= ra -> 0 <= rb ->
  spheres_overlap n ca ra cb rb <-> exists x, in_ball n ca ra x /\ in_ball n cb rb x.
Proof. by move=> a0 b0; rewrite /spheres_overlap l2E -dist2E; exact: spheres_meet. Qed.
Theorem C75_sphere_point (n : nat) (c : vec) (r : T) (p : vec) :
  sphere_has n c r p <-> in_ball n c r p.
Proof. by rewrite /sphere_has l2E -dist2E -expr2. Qed.
(* merge: the smallest box with the old one and the point *)
Theorem C75_merge (n : nat) (b : vec * vec) (p : vec) :
  [/\ in_box n (merge n b p) p, within_box n b (merge n b p) &
   forall c, in_box n c p -> within_box n b c -> within_box n (merge n b p) c].
Proof. by have [h k q] := merge_ok n b p; split=> // c h1 h2; exact: q. Qed.
(* get_bounding_box: the smallest box of two points *)
Theorem C75_get_bounding_box (n : nat) (a b : vec) :
  bounds n (fun x => x = a \/ x = b) (get_bounding_box a b).
Proof.
split=> [x [] -> i il|c h i il]; have [h1 h2 h3 h4] := bounding_boxP a b i => //.
case/andP: (h a (or_introl erefl) i il) => a1 a2; case/andP: (h b (or_intror erefl) i il) => b1 b2.
by split; [case: h3 => ->|case: h4 => ->].
Qed.
(* getUniformCoord: the position in the box, clamped to it *)
Theorem C75_uniform_coord_partial (b : vec * vec) (p : vec) (d : nat) : b.1 d < b.2 d ->
  exists2 u, uniform_coord b p d = Some u & 0 <= u <= 1 /\
    b.1 d + u * (b.2 d - b.1 d) = if p d < b.1 d then b.1 d else if b.2 d < p d then b.2 d else p d.
Proof. exact: uniform_coord_ok. Qed.
(* in a flat box it divides zero by zero *)
Theorem C75_uniform_coord_refuted (b : vec * vec) (p : vec) (d : nat) : b.1 d = b.2 d ->
  uniform_coord b p d = None.
Proof. by move=> e; rewrite /uniform_coord /quo e subrr eqxx. Qed.
(* the broad phases miss nothing: if at some time the point comes as close to
   the triangle as dist, the pair is kept *)
Theorem C75_pt_broadphase (n : nat) (p t0 t1 t2 dp dt0 dt1 dt2 : vec) (dist toc tau : T) (x : vec) :
  0 <= tau <= toc -> 0 <= dist ->
  on_tri (at_time t0 dt0 tau) (at_time t1 dt1 tau) (at_time t2 dt2 tau) x ->
  dist2 n (at_time p dp tau) x <= dist ^+ 2 ->
  pt_ccd_broadphase n p t0 t1 t2 dp dt0 dt1 dt2 dist toc.
Proof. exact: pt_found. Qed.
Theorem C75_ee_broadphase (n : nat) (ea0 ea1 eb0 eb1 dea0 dea1 deb0 deb1 : vec) (dist toc tau : T) (x y : vec) :
  0 <= tau <= toc -> 0 <= dist ->
  on_seg (at_time ea0 dea0 tau) (at_time ea1 dea1 tau) x ->
  on_seg (at_time eb0 deb0 tau) (at_time eb1 deb1 tau) y ->
  dist2 n x y <= dist ^+ 2 ->
  ee_ccd_broadphase n ea0 ea1 eb0 eb1 dea0 dea1 deb0 deb1 dist toc.
Proof. exact: ee_found. Qed.
(* and they discard what an axis separates by more than dist *)
Theorem C75_pt_broadphase_discards (n : nat) (p t0 t1 t2 dp dt0 dt1 dt2 : vec) (dist toc : T) (i : nat) :
  (i < n)%N -> 0 <= toc ->
  below i dist (swept_pt toc p dp) (swept_tri toc t0 t1 t2 dt0 dt1 dt2) \/
  below i dist (swept_tri toc t0 t1 t2 dt0 dt1 dt2) (swept_pt toc p dp) ->
  pt_ccd_broadphase n p t0 t1 t2 dp dt0 dt1 dt2 dist toc = false.
Proof. exact: pt_rejected. Qed.
Theorem C75_ee_broadphase_discards (n : nat) (ea0 ea1 eb0 eb1 dea0 dea1 deb0 deb1 : vec) (dist toc : T) (i : nat) :
  (i < n)%N -> 0 <= toc ->
  below i dist (swept_seg toc ea0 ea1 dea0 dea1) (swept_seg toc eb0 eb1 deb0 deb1) \/
  below i dist (swept_seg toc eb0 eb1 deb0 deb1) (swept_seg toc ea0 ea1 dea0 dea1) ->
  ee_ccd_broadphase n ea0 ea1 eb0 eb1 dea0 dea1 deb0 deb1 dist toc = false.
Proof. by move=> il tc; exact: ee_rejected. Qed.

(* ray_tri_intersect: the reported point lies on the ray and on the triangle,
   enlarged by the tolerance *)
Theorem C75_ray_tri_sound_partial (eps : T) (ro rd v0 v1 v2 : vec) (r : T) : 0 <= eps ->
  ray_tri_intersect eps ro rd v0 v1 v2 = Some r ->
  exists s t, [/\ - eps <= s, s <= 1 + eps, - eps <= t, s + t <= 1 + eps * 2%:R &
    forall i, (i < 3)%N -> on_ray ro rd r i = tri_at v0 v1 v2 s t i].
Proof. by move=> e0 h; exact: (ray_tri_sound e0 h). Qed.
(* a hit is reported when the direction, scaled by twice the area of the
   triangle, leaves its plane faster than the tolerance *)
Theorem C75_ray_tri_complete_partial (eps : T) (ro rd v0 v1 v2 : vec) (r s t : T) : 0 <= eps ->
  eps < `|dot 3 (cross3 (vsub v1 v0) (vsub v2 v0)) rd| ->
  0 <= s -> 0 <= t -> s + t <= 1 ->
  (forall i, (i < 3)%N -> on_ray ro rd r i = tri_at v0 v1 v2 s t i) ->
  ray_tri_intersect eps ro rd v0 v1 v2 = Some r.
Proof. by move=> e0; rewrite dotE => h s0 t0 st k; exact: (ray_tri_complete e0 h s0 t0 st k). Qed.
(* a triangle behind the origin of the ray is reported, too *)
Theorem C75_ray_tri_behind_refuted (eps : T) : 0 <= eps < 1 -> exists ro rd v0 v1 v2 : vec, exists r,
  r < 0 /\ ray_tri_intersect eps ro rd v0 v1 v2 = Some r.
Proof.
case/andP=> e0 e1.
exists (pt3 0 0 1), (pt3 0 0 1), (pt3 0 0 0), (pt3 1 0 0), (pt3 0 1 0), (- 1); split; first by rewrite oppr_lt0 ltr01.
apply: (@ray_tri_complete _ eps _ _ _ _ _ e0 _ 0 0) => //; rewrite ?addr0 ?ler01 //.
  rewrite sdot3 /cross3 /vset /vsub /=.
  have -> : ((0 - 0) * (0 - 0) - (0 - 0) * (1 - 0)) * 0 + ((0 - 0) * (0 - 0) - (1 - 0) * (0 - 0)) * 0
      + ((1 - 0) * (1 - 0) - (0 - 0) * (0 - 0)) * 1 = 1 :> T by fld.
  by rewrite normr1.
case=> [|[|[|//]]] _; rewrite /on_ray /tri_at /=; by fld.
Qed.
(* however small the tolerance, hits in the middle of small triangles are
   missed *)
Theorem C75_ray_tri_small_refuted (eps : T) : 0 < eps <= 1 -> exists ro rd v0 v1 v2 : vec,
  [/\ proper_tri 3 v0 v1 v2,
    (exists r s t, [/\ 0 < r, 0 < s, 0 < t & s + t < 1 /\
       forall i, (i < 3)%N -> on_ray ro rd r i = tri_at v0 v1 v2 s t i]) &
    ray_tri_intersect eps ro rd v0 v1 v2 = None].
Proof.
case/andP=> e0 e1.
exists (pt3 (eps / 4%:R) (eps / 4%:R) (- 1)), (pt3 0 0 1), (pt3 0 0 0), (pt3 eps 0 0), (pt3 0 eps 0); split.
- move=> s t h.
  have := h 0%N isT; have := h 1%N isT => /=.
  rewrite !subr0 !mulr0 add0r addr0 => /eqP h1 /eqP h2.
  by move: h1 h2; rewrite !mulf_eq0 (gt_eqF e0) !orbF => /eqP-> /eqP->.
- exists 1, (4%:R^-1), (4%:R^-1); rewrite ltr01 invr_gt0 ltr0n; split=> //; split.
    rewrite -[X in X + X]mul1r -mulrDl ltr_pdivr_mulr ?ltr0n // mul1r; have -> : 1 + 1 = 2%:R :> T by fld.
    by rewrite ltr_nat.
  move: (4%:R^-1 : T) => q.
  case=> [|[|[|//]]] _; rewrite /on_ray /tri_at /=; by fld.
rewrite /ray_tri_intersect dotE sdot3 /cross3 /vset /vsub /=.
have -> : ((0 - 0) * (0 - 0) - (0 - 0) * (eps - 0)) * 0 + ((0 - 0) * (0 - 0) - (eps - 0) * (0 - 0)) * 0
      + ((eps - 0) * (eps - 0) - (0 - 0) * (0 - 0)) * 1 = eps * eps by fld.
have -> : `|eps * eps| = eps * eps by rewrite ger0_norm // mulr_ge0 // ltW.
by have -> : (eps < eps * eps) = false by apply/negbTE; rewrite -leNgt ler_pimull // ltW.
Qed.
(* ray_box_intersect, for a direction other than zero and an origin that is
   not on the face of a box with a ray parallel to that face, in the first
   dimension: true iff the ray meets the box *)
Theorem C75_ray_box_partial (ro rd : vec) (neg : nat -> bool) (box : vec * vec) : box_ok 3 box ->
  (exists2 i, (i < 3)%N & rd i <> 0) -> (rd 0%N = 0 -> ro 0%N <> box.1 0%N /\ ro 0%N <> box.2 0%N) ->
  ray_box_intersect ro rd neg box <-> exists2 t, 0 <= t & in_box 3 box (on_ray ro rd t).
Proof. exact: ray_box_ok. Qed.
(* with a zero direction a box beside the origin is reported *)
Theorem C75_ray_box_zero_refuted (neg : nat -> bool) : neg 0%N = false ->
  exists (ro : vec) (box : vec * vec),
  [/\ box_ok 3 box, ~ in_box 3 box ro & ray_box_intersect ro (fun=> 0) neg box].
Proof.
move=> ng; exists (fun=> 0), (pt3 1 (- 1) (- 1), pt3 2%:R 1 1).
have m1 : (- 1 : T) < 0 by rewrite oppr_lt0 ltr01.
split.
- by case=> [|[|[|//]]] _ /=; rewrite ?ler1n ?lerN10 ?ge0_cp ?(le_trans _ ler01) // ltW.
- by move/(_ 0%N isT); rewrite /= ler10.
rewrite /ray_box_intersect /einv eqxx ng /= !subr0 ltr01 ltr0n /=.
by case: (neg 1%N); case: (neg 2%N); rewrite /= ?subr0 ?ltr01 ?m1 ?(lt_gtF m1) /= ?ltr01.
Qed.
(* parallel to a face and starting on it: a box that is missed is reported,
   and one that is hit is not *)
Theorem C75_ray_box_face_refuted : exists (ro rd : vec) (box : vec * vec),
  [/\ box_ok 3 box, ~ (exists t, in_box 3 box (on_ray ro rd t)) & ray_box_intersect ro rd xpred0 box].
Proof.
exists (fun=> 0), (pt3 0 1 1), (pt3 0 5%:R 1, pt3 1 6%:R 2%:R); split.
- by case=> [|[|[|//]]] _ /=; rewrite ?ler01 ?ler_nat ?ler1n.
- move=> [t h]; case/andP: (h 1%N isT) => /= h1 h2; case/andP: (h 2%N isT) => /= h3 h4.
  have : 5%:R <= 2%:R :> T by apply: le_trans h1 h4.
  by rewrite ler_nat.
rewrite /ray_box_intersect /einv /= eqxx !oner_eq0 /= !subr0 ltxx ltr01 invr1 !mulr1 /= ltr10 /=.
by rewrite ltrn1 ltr_nat /= ler0n.
Qed.
Theorem C75_ray_box_face_missed_refuted : exists (ro rd : vec) (box : vec * vec),
  [/\ box_ok 3 box, (exists2 t, 0 <= t & in_box 3 box (on_ray ro rd t)) & ~~ ray_box_intersect ro rd xpred0 box].
Proof.
exists (pt3 1 0 0), (pt3 0 1 1), (pt3 0 1 1, pt3 1 2%:R 2%:R); split.
- by case=> [|[|[|//]]] _ /=; rewrite ?ler01 ?ler_nat ?ler1n.
- exists 1; first exact: ler01.
  by case=> [|[|[|//]]] _; rewrite /on_ray /= ?mulr0 ?addr0 ?mulr1 ?add0r ?lexx ?ler01 ?ler1n.
rewrite /ray_box_intersect /einv /= eqxx !oner_eq0 /= subrr ltxx.
have m1 : (0 - 1 : T) < 0 by rewrite sub0r oppr_lt0 ltr01.
rewrite m1 (lt_gtF m1) /= invr1 ltr10 /= !subr0 !mulr1 /=.
by rewrite ?ltrn1 /=.
Qed.
(* the hypotheses are met: a ray through a box, one parallel to a face; a point
   that falls on a triangle at time 1 *)
Example C75_ray_box_ex (neg : nat -> bool) :
  let box : vec * vec := (pt3 1 1 1, pt3 2%:R 3%:R 3%:R) in
  [/\ box_ok 3 box, ray_box_intersect (pt3 0 0 0) (pt3 1 1 1) neg box &
   ray_box_intersect (pt3 2%:R 3%:R 0) (pt3 1 0 (- 1)) neg box = false].
Proof.
move=> box.
have ok : box_ok 3 box by case=> [|[|[|//]]] _ /=; rewrite ler1n.
split=> //.
- apply/C75_ray_box_partial => //; first by exists 0%N => //=; apply/eqP/oner_neq0.
    by move/eqP; rewrite oner_eq0.
  exists 1; first exact: ler01.
  by case=> [|[|[|//]]] _; rewrite /on_ray /= mulr1 add0r lexx ler1n.
- apply/negP => /C75_ray_box_partial [] //; first by exists 0%N => //=; apply/eqP/oner_neq0.
    by move/eqP; rewrite oner_eq0.
  move=> t t0 h; case/andP: (h 2%N isT); rewrite /on_ray /= add0r mulrN mulr1 => h1 _.
  have := le_trans h1 (_ : - t <= 0); rewrite oppr_le0 ler10 => /(_ t0) //.
Qed.
Example C75_pt_broadphase_ex :
  pt_ccd_broadphase 3 (pt3 0 0 2%:R) (pt3 0 0 0) (pt3 1 0 0) (pt3 0 1 0)
    (pt3 0 0 (- 2%:R)) (fun=> 0) (fun=> 0) (fun=> 0) 0 (1 : T).
Proof.
apply: (@C75_pt_broadphase 3 _ _ _ _ _ _ _ _ 0 1 1 (tri_at (at_time (pt3 0 0 0) (fun=> 0) 1)
  (at_time (pt3 1 0 0) (fun=> 0) 1) (at_time (pt3 0 1 0) (fun=> 0) 1) 0 0)); rewrite ?ler01 ?lexx //.
  by have [] := tri_corner (at_time (pt3 0 0 0) (fun=> 0 : T) 1) (at_time (pt3 1 0 0) (fun=> 0) 1) (at_time (pt3 0 1 0) (fun=> 0) 1).
rewrite /dist2 !big_ord_recr big_ord0 /= /tri_at /at_time /= !expr2.
by rewrite le_eqVlt; apply/orP; left; apply/eqP; fld.
Qed.
End Props.
Print Assumptions C74_plane_partial.
Print Assumptions C74_plane_refuted.
Print Assumptions C74_cuboid.
Print Assumptions C74_box_distance.
Print Assumptions C74_cuboid_of.
Print Assumptions C74_sphere.
Print Assumptions C74_sphere_normal.
Print Assumptions C74_cylinder.
Print Assumptions C74_sphere_box.
Print Assumptions C74_cylinder_box.
Print Assumptions C74_plane_box_refuted.
Print Assumptions C75_overlaps.
Print Assumptions C75_overlaps_point.
Print Assumptions C75_spheres_overlap.
Print Assumptions C75_sphere_point.
Print Assumptions C75_merge.
Print Assumptions C75_get_bounding_box.
Print Assumptions C75_uniform_coord_partial.
Print Assumptions C75_uniform_coord_refuted.
Print Assumptions C75_pt_broadphase.
Print Assumptions C75_ee_broadphase.
Print Assumptions C75_pt_broadphase_discards.
Print Assumptions C75_ee_broadphase_discards.
Print Assumptions C75_ray_tri_sound_partial.
Print Assumptions C75_ray_tri_complete_partial.
Print Assumptions C75_ray_tri_behind_refuted.
Print Assumptions C75_ray_tri_small_refuted.
Print Assumptions C75_ray_box_partial.
Print Assumptions C75_ray_box_zero_refuted.
Print Assumptions C75_ray_box_face_refuted.
Print Assumptions C75_ray_box_face_missed_refuted.
