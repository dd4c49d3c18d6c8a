(* C71: distances of a point to an edge or a triangle; C72: distances between
   two edges; C73: edge-triangle intersection, the edge-edge mollifier and the
   derivatives of the point-point distance. *)
From mathcomp Require Import all_ssreflect all_algebra.
From Coq Require Import Field.
From Verif Require Import FieldTac NraTac MatModel DistModel DistSpec.
From Verif Require Import DistProofs DistProofs2 DistProofs3 DistProofs4 DistProofs5 DistProofs6 DistProofs7 DistProofs8 DistProofs9.
Set Implicit Arguments.
Unset Strict Implicit.
Unset Printing Implicit Defensive.
Import Order.TTheory GRing.Theory Num.Theory.
Local Open Scope ring_scope.

Section Props.
Variable T : realFieldType.
Let F : fieldType := [fieldType of T].
Add Field ffd : (cfield F).
Ltac fld := to_fld F; field.
Ltac nra := fnra_ T.
Ltac lra := flra_ T.
Notation vec := (nat -> T).
Notation pt3 := (@pt3 T).

(* ---- C71 ---- *)

(* the distance from a point to an edge, in the plane and in space *)
Theorem C71_point_edge (top : T) (n : nat) (p e0 e1 : vec) : n = 2%N \/ n = 3%N -> proper_seg n e0 e1 ->
  exists2 r, dist2_pe_unclassified top n p e0 e1 = Some r & least_dist2 n (eq p) (on_seg e0 e1) r.
Proof. exact: pe_unclassified. Qed.

(* the distance from a point to an interval *)
Theorem C71_point_interval (p e0 e1 : vec) :
  exists2 r, dist2_pe 1 p e0 e1 = Some r & least_dist2 1 (eq p) (on_seg e0 e1) r.
Proof. exact: pe1. Qed.

(* the distance from a point to a triangle: Distance.hpp *)
Theorem C71_point_triangle (top : T) (p t0 t1 t2 : vec) : proper_tri 3 t0 t1 t2 ->
  exists2 r, dist2_pt_unclassified top p t0 t1 t2 = Some r & least_dist2 3 (eq p) (on_tri t0 t1 t2) r.
Proof. by move=> h; apply: pt_unclassified. Qed.

(* the distance from a point to a triangle, in any dimension: SpatialQuery.hpp;
   the category names the corner, edge or face of a closest point *)
Theorem C71_point_triangle_category (n : nat) (p t0 t1 t2 : vec) : proper_tri n t0 t1 t2 ->
  exists f r, [/\ pt_category_and_dist2 n p t0 t1 t2 = Some (f, r),
    dist_pt_sqr n p t0 t1 t2 = Some r,
    least_dist2 n (eq p) (on_tri t0 t1 t2) r &
    exists x, tri_feature n p t0 t1 t2 f x /\ r = dist2 n p x].
Proof.
move=> /(pt_category_ok p) [f [r [E h1 h2]]].
by exists f, r; split; rewrite ?dist_pt_sqr_category ?E.
Qed.

(* without a proper edge or triangle the functions divide by zero *)
Theorem C71_degenerate_refuted (top : T) :
  (forall n (p e0 e1 : vec), n = 2%N \/ n = 3%N -> ~ proper_seg n e0 e1 -> dist2_pe_unclassified top n p e0 e1 = None) /\
  (forall n (p t0 t1 t2 : vec), ~ proper_tri n t0 t1 t2 ->
     dist_pt_sqr n p t0 t1 t2 = None /\ pt_category_and_dist2 n p t0 t1 t2 = None).
Proof.
split=> [n p e0 e1 h k|n p t0 t1 t2 h]; first exact: pe_degenerate.
by rewrite dist_pt_sqr_category pt_degenerate.
Qed.

(* in one dimension a point strictly inside an interval is reported to be as
   far away as the largest number *)
Theorem C71_one_dimension_refuted (top : T) (p e0 e1 : vec) : e0 0%N < p 0%N < e1 0%N ->
  dist2_pe_unclassified top 1 p e0 e1 = Some top /\ least_dist2 1 (eq p) (on_seg e0 e1) 0.
Proof.
move=> /andP [h1 h2]; split.
  rewrite /dist2_pe_unclassified /pe_distance_type dotE l2E !DistProofs6.sdot1 /vsub.
  set x := e1 0%N - e0 0%N; set y := p 0%N - e0 0%N.
  have x0 : 0 < x by rewrite /x; lra.
  have y0 : 0 < y by rewrite /y; lra.
  have yx : y < x by rewrite /x /y; lra.
  have xx : 0 < x * x by apply: mulr_gt0.
  have [q [-> E]] := quo_ok (x * y) xx => /=.
  have q0 : 0 <= q.
    by rewrite -(pmulr_lge0 _ xx) E ltW // mulr_gt0.
  have q1 : q <= 1 by rewrite -(ler_pmul2r xx) E mul1r ler_pmul2l // ltW.
  by rewrite ltNge q0 ltNge q1.
have [r _ [[x [y [<- ky E]]] h]] := pe1 p e0 e1.
have r0 : 0 <= r by rewrite E; apply: sumr_ge0 => i _; rewrite sqr_ge0.
pose s := (p 0%N - e0 0%N) / (e1 0%N - e0 0%N).
have n0 : e1 0%N - e0 0%N <> 0 by move=> k; lra.
have P : on_seg e0 e1 (seg_at e0 e1 s).
  exists s; split=> //; apply/andP; split; first by apply: divr_ge0; lra.
  by rewrite /s ler_pdivr_mulr; lra.
have Z : dist2 1 p (seg_at e0 e1 s) = 0.
  rewrite /dist2 big_ord_recl big_ord0 /seg_at /= addr0.
  have -> : (1 - s) * e0 0%N + s * e1 0%N = p 0%N by rewrite /s; fld.
  by rewrite subrr expr0n.
split; first by exists p, (seg_at e0 e1 s).
by move=> u v <- _; apply: sumr_ge0 => i _; rewrite sqr_ge0.
Qed.

(* the hypotheses hold for ordinary edges and triangles *)
Example C71_unit_edge : proper_seg 2 (pt3 0 0 0) (pt3 1 0 0).
Proof. by exists 0%N => //= /esym /eqP; rewrite oner_eq0. Qed.
Example C71_unit_triangle : proper_tri 3 (pt3 0 0 0) (pt3 1 0 0) (pt3 0 1 0).
Proof. by move=> s t h; move: (h 0%N isT) (h 1%N isT) => /=; split; lra. Qed.
Example C71_above_corner : least_dist2 3 (eq (pt3 (-1) (-1) 1)) (on_tri (pt3 0 0 0) (pt3 1 0 0) (pt3 0 1 0)) 3%:R.
Proof.
split.
  exists (pt3 (-1) (-1) 1), (tri_at (pt3 0 0 0) (pt3 1 0 0) (pt3 0 1 0) 0 0); split=> //.
    by exists 0, 0; split=> //; lra.
  by rewrite /dist2 /tri_at !big_ord_recl big_ord0 /= !expr2; fld.
move=> x y <- [s [t [s0 t0 st ->]]].
by rewrite /dist2 /tri_at !big_ord_recl big_ord0 /= !expr2; nra.
Qed.

(* ---- C72 ---- *)

Lemma resolved_clear eps n (ea0 ea1 eb0 eb1 : vec) : resolved eps n ea0 ea1 eb0 eb1 ->
  let u := vsub ea1 ea0 in let v := vsub eb1 eb0 in let w := vsub ea0 eb0 in
  all_clear eps (sdot n u u) (sdot n u v) (sdot n v v) (sdot n u w) (sdot n v w).
Proof. by []. Qed.

(* the distance of two edges, in any dimension, when the numbers compared with
   the tolerance are resolved by it *)
Theorem C72_edge_edge (eps : T) (n : nat) (ea0 ea1 eb0 eb1 : vec) : 0 < eps <= 1 ->
  resolved eps n ea0 ea1 eb0 eb1 -> proper_seg n eb0 eb1 ->
  exists2 r, dist_ee_sqr eps n ea0 ea1 eb0 eb1 = Some r & least_dist2 n (on_seg ea0 ea1) (on_seg eb0 eb1) r.
Proof. by move=> /andP [h1 h2] /resolved_clear h3 h4; apply: dist_ee_least. Qed.

(* the same with the category, also for edges without length *)
Theorem C72_edge_edge_category (eps : T) (n : nat) (ea0 ea1 eb0 eb1 : vec) : 0 < eps <= 1 ->
  resolved eps n ea0 ea1 eb0 eb1 ->
  exists ka kb r, [/\ ee_category_and_dist2 eps n ea0 ea1 eb0 eb1 = Some ((ka * 3 + kb)%N, r),
    least_dist2 n (on_seg ea0 ea1) (on_seg eb0 eb1) r &
    exists x y, [/\ seg_feature n y ea0 ea1 ka x, seg_feature n x eb0 eb1 kb y & r = dist2 n x y]].
Proof. by move=> /andP [h1 h2] /resolved_clear h3; apply: ee_category_least. Qed.

(* integer coordinates are always resolved *)
Theorem C72_integer_coordinates (eps : T) (n : nat) (ea0 ea1 eb0 eb1 : vec) : eps <= 1 ->
  integer_point ea0 -> integer_point ea1 -> integer_point eb0 -> integer_point eb1 ->
  resolved eps n ea0 ea1 eb0 eb1.
Proof.
move=> e1 i0 i1 i2 i3.
have /= := @int_all_clear T n eps (vsub ea1 ea0) (vsub eb1 eb0) (vsub ea0 eb0) e1.
by apply=> i; apply: int_sub.
Qed.

(* whatever the tolerance loses, the result is the distance of two points of
   the edges: never less than the least distance *)
Theorem C72_edge_edge_attained (eps : T) (n : nat) (ea0 ea1 eb0 eb1 : vec) : 0 < eps <= 1 ->
  exists r x y, [/\ dist_ee_sqr eps n ea0 ea1 eb0 eb1 = Some r, on_seg ea0 ea1 x, on_seg eb0 eb1 y & r = dist2 n x y].
Proof. by move=> /andP [h1 h2]; apply: dist_ee_attained. Qed.

(* Distance.hpp: exact for edges that do not touch and are parallel or not
   nearly parallel *)
Theorem C72_unclassified (tiny top : T) (ea0 ea1 eb0 eb1 : vec) :
  ~ meet 3 (on_seg ea0 ea1) (on_seg eb0 eb1) -> angle_above tiny ea0 ea1 eb0 eb1 ->
  exists2 r, dist2_ee_unclassified tiny top ea0 ea1 eb0 eb1 = Some r &
    least_dist2 3 (on_seg ea0 ea1) (on_seg eb0 eb1) r.
Proof.
move=> h k; apply: ee_unclassified => // x y hx hy z; apply: h.
by exists x, y; split=> //; apply/coords.
Qed.

(* crossing edges: the distance 0 is reported as 1 *)
Theorem C72_crossing_refuted (tiny top : T) :
  let ea0 := pt3 (- 1) 0 0 in let ea1 := pt3 1 0 0 in
  let eb0 := pt3 0 (- 1) 0 in let eb1 := pt3 0 1 0 in
  meet 3 (on_seg ea0 ea1) (on_seg eb0 eb1) /\ dist2_ee_unclassified tiny top ea0 ea1 eb0 eb1 = Some 1.
Proof.
split.
  exists (seg_at (pt3 (- 1) 0 0) (pt3 1 0 0) (2%:R^-1)), (seg_at (pt3 0 (- 1) 0) (pt3 0 1 0) (2%:R^-1)).
  have two : (2%:R : T) <> 0 by apply/eqP; rewrite pnatr_eq0.
  have i : 0 <= (2%:R^-1 : T) <= 1.
    by rewrite invr_ge0 ler0n /= invf_le1 ?ltr0n // ler1n.
  split; [by exists 2%:R^-1 | by exists 2%:R^-1 |].
  by case=> [|[|[|//]]] _; rewrite /seg_at /=; fld.
have two : (2%:R : T) <> 0 by apply/eqP; rewrite pnatr_eq0.
have E : ee_distance_type tiny (pt3 (- 1) 0 0) (pt3 1 0 0) (pt3 0 (- 1) 0) (pt3 0 1 0) = 5%N.
  rewrite /ee_distance_type !dotE !l2E.
  set u := vsub (pt3 1 0 0) _; set v := vsub (pt3 0 1 0) _; set w := vsub (pt3 (- 1) 0 0) _.
  have -> : sdot 3 u u = 4%:R by rewrite sdot3 /u /vsub /=; fld.
  have -> : sdot 3 u v = 0 by rewrite sdot3 /u /v /vsub /=; fld.
  have -> : sdot 3 v v = 4%:R by rewrite sdot3 /v /vsub /=; fld.
  have -> : sdot 3 u w = - 2%:R by rewrite sdot3 /u /w /vsub /=; fld.
  have -> : sdot 3 v w = 2%:R by rewrite sdot3 /v /w /vsub /=; fld.
  have -> : sdot 3 (cross3 u v) w = 0 by rewrite sdot3 !crossE /u /v /w /vsub /=; fld.
  rewrite eqxx /= !mul0r !subr0 !add0r addr0 mulrN opprK -!natrM !ler_nat !ltr_nat !lern0 !ltr0n /=.
  rewrite (_ : (_ < _) = false) /= ?lern0 ?ler_nat //.
  by rewrite ltr_pdivl_mulr ?ltr0n // -natrM ltr_nat.
rewrite /dist2_ee_unclassified E.
rewrite /dist2_pe !l2E.
have -> : sdot 3 (vsub (pt3 0 1 0) (pt3 0 (- 1) 0)) (vsub (pt3 0 1 0) (pt3 0 (- 1) 0)) = 4%:R.
  by rewrite sdot3 /vsub /=; fld.
rewrite (_ : sdot 3 _ _ = 4%:R); last by rewrite sdot3 !crossE /vsub /=; fld.
by rewrite /quo pnatr_eq0 /= divff // pnatr_eq0.
Qed.

(* an edge without length given second: dist_ee_sqr is wrong ... *)
Theorem C72_point_second_refuted (eps : T) : 0 < eps <= 1 ->
  let ea0 := pt3 0 0 0 in let ea1 := pt3 2%:R 0 0 in let eb := pt3 1 0 0 in
  dist_ee_sqr eps 3 ea0 ea1 eb eb = Some 1 /\ meet 3 (on_seg ea0 ea1) (on_seg eb eb).
Proof.
move=> /andP [e0 e1] ea0 ea1 eb.
have two : (2%:R : T) <> 0 by apply/eqP; rewrite pnatr_eq0.
have i : 0 <= (2%:R^-1 : T) <= 1.
  by rewrite invr_ge0 ler0n /= invf_le1 ?ltr0n // ler1n.
split; last first.
  exists (seg_at ea0 ea1 2%:R^-1), (seg_at eb eb 2%:R^-1).
  split; [by exists 2%:R^-1 | by exists 2%:R^-1 |].
  by case=> [|[|[|//]]] _; rewrite /seg_at /=; fld.
rewrite /dist_ee_sqr !dotE /ee_st.
have -> : sdot 3 (vsub eb eb) (vsub eb eb) = 0 by rewrite sdot3 /vsub /=; fld.
have -> : sdot 3 (vsub ea1 ea0) (vsub eb eb) = 0 by rewrite sdot3 /vsub /=; fld.
have -> : sdot 3 (vsub eb eb) (vsub ea0 eb) = 0 by rewrite sdot3 /vsub /=; fld.
rewrite !mulr0 subrr e0 !ltxx normr0 e0 /=.
by rewrite l2E sdot3 /vsub /vadd /vscale /=; congr Some; fld.
Qed.

(* ... and short edges are taken to be parallel: whatever the tolerance, there
   are crossing edges with a positive result *)
Theorem C72_short_refuted (eps : T) : 0 < eps -> exists ea0 ea1 eb0 eb1 r,
  [/\ meet 3 (on_seg ea0 ea1) (on_seg eb0 eb1), 0 < r, dist_ee_sqr eps 3 ea0 ea1 eb0 eb1 = Some r &
    exists f, ee_category_and_dist2 eps 3 ea0 ea1 eb0 eb1 = Some (f, r)].
Proof.
move=> e0.
have two : (2%:R : T) <> 0 by apply/eqP; rewrite pnatr_eq0.
have four : (0 < 4%:R :> T) by rewrite ltr0n.
pose m := (if eps < 1 then eps else 1) : T.
have m0 : 0 < m by rewrite /m; case: ifP => // _; rewrite ltr01.
have me : m <= eps by rewrite /m; case: ifP => // h; lra.
have m1 : m <= 1 by rewrite /m; case: ifP => // h; lra.
have [h [_ hE]] := quo_ok m four.
clearbody m.
have h0 : 0 < h by lra.
have hD : 16%:R * h * h * h * h < eps.
  have q : h <= 4%:R^-1 by rewrite -[_^-1]mul1r ler_pdivl_mulr // hE.
  have := mulr_gt0 h0 h0; set k := h * h => k0.
  have k4 : k * 16%:R <= 1 by rewrite /k; nra.
  have : 16%:R * h * h * h * h = (k * 16%:R) * k by rewrite /k; fld.
  have kh : k < eps by rewrite /k; nra.
  by move=> ->; nra.
have i : 0 <= (2%:R^-1 : T) <= 1.
  by rewrite invr_ge0 ler0n /= invf_le1 ?ltr0n // ler1n.
have a : sdot 3 (vsub (pt3 h 0 0) (pt3 (- h) 0 0)) (vsub (pt3 h 0 0) (pt3 (- h) 0 0)) = 4%:R * h * h.
  by rewrite sdot3 /vsub /=; fld.
have b : sdot 3 (vsub (pt3 h 0 0) (pt3 (- h) 0 0)) (vsub (pt3 0 h 0) (pt3 0 (- h) 0)) = 0.
  by rewrite sdot3 /vsub /=; fld.
have c : sdot 3 (vsub (pt3 0 h 0) (pt3 0 (- h) 0)) (vsub (pt3 0 h 0) (pt3 0 (- h) 0)) = 4%:R * h * h.
  by rewrite sdot3 /vsub /=; fld.
have d : sdot 3 (vsub (pt3 h 0 0) (pt3 (- h) 0 0)) (vsub (pt3 (- h) 0 0) (pt3 0 (- h) 0)) = - 2%:R * h * h.
  by rewrite sdot3 /vsub /=; fld.
have e : sdot 3 (vsub (pt3 0 h 0) (pt3 0 (- h) 0)) (vsub (pt3 (- h) 0 0) (pt3 0 (- h) 0)) = 2%:R * h * h.
  by rewrite sdot3 /vsub /=; fld.
have D : 4%:R * h * h * (4%:R * h * h) - 0 * 0 < eps by nra.
have hh := mulr_gt0 h0 h0.
have t1 : (2%:R * h * h < 0) = false by apply/negP => k; nra.
have t1' : (2%:R * h * h <= 0) = false by apply/negP => k; nra.
have t2 : (4%:R * h * h < 2%:R * h * h) = false by apply/negP => k; nra.
have t2' : (4%:R * h * h <= 2%:R * h * h) = false by apply/negP => k; nra.
have q : quo (2%:R * h * h) (4%:R * h * h) = Some 2%:R^-1.
  have hn : h <> 0 by move=> z; lra.
  have fn : (4%:R : T) <> 0 by apply/eqP; rewrite pnatr_eq0.
  rewrite /quo; case: eqP => [z|/eqP zn]; first by exfalso; move: hh z; clear => hh z; nra.
  by congr Some; apply: (mulIf zn); rewrite divfK //; fld.
pose tc := if `|2%:R * h * h| < eps then 0 else 2%:R^-1 : T.
have tcE : (if `|2%:R * h * h| < eps then Some 0 else quo (2%:R * h * h) (4%:R * h * h)) = Some tc.
  by rewrite q /tc; case: ifP.
exists (pt3 (- h) 0 0), (pt3 h 0 0), (pt3 0 (- h) 0), (pt3 0 h 0), (h * h * (1 + (1 - 2%:R * tc) ^+ 2)).
split.
- exists (seg_at (pt3 (- h) 0 0) (pt3 h 0 0) 2%:R^-1), (seg_at (pt3 0 (- h) 0) (pt3 0 h 0) 2%:R^-1).
  split; [by exists 2%:R^-1 | by exists 2%:R^-1 |].
  by case=> [|[|[|//]]] _; rewrite /seg_at /=; fld.
- by apply: mulr_gt0 => //; have := sqr_ge0 (1 - 2%:R * tc); lra.
- rewrite /dist_ee_sqr !dotE /ee_st a b c d e D t1 t2 normr0 e0 tcE /=.
  by rewrite l2E sdot3 /vsub /vadd /vscale /= expr2; congr Some; fld.
- exists 2%N; rewrite /ee_category_and_dist2 !dotE /ee_category a b c d e D t1' t2' normr0 e0 tcE /=.
  by rewrite l2E sdot3 /vsub /vadd /vscale /= expr2; congr (Some (_, _)); fld.
Qed.

(* ordinary edges are resolved and not nearly parallel *)
Example C72_skew_edges : exists r, [/\ dist_ee_sqr (2%:R^-1 : T) 3 (pt3 (-1) 0 0) (pt3 1 0 0) (pt3 0 (- 1) 1) (pt3 0 1 1) = Some r
  & least_dist2 3 (on_seg (pt3 (-1) 0 0) (pt3 1 0 0)) (on_seg (pt3 0 (- 1) 1) (pt3 0 1 1)) r].
Proof.
have int0 : forall x y z : int, integer_point (pt3 x%:~R y%:~R z%:~R).
  by move=> x y z [|[|[|i]]]; [exists x | exists y | exists z | exists 0].
have [|||r h1 h2] := @C72_edge_edge 2%:R^-1 3 (pt3 (-1) 0 0) (pt3 1 0 0) (pt3 0 (- 1) 1) (pt3 0 1 1).
- by rewrite invr_gt0 ltr0n /= invf_le1 ?ltr0n // ler1n.
- apply: C72_integer_coordinates; first by rewrite invf_le1 ?ltr0n // ler1n.
  + exact: (int0 (-1) 0 0).
  + exact: (int0 1 0 0).
  + exact: (int0 0 (-1) 1).
  + exact: (int0 0 1 1).
- by exists 1%N => //= z; lra.
- by exists r.
Qed.
Example C72_skew_apart : ~ meet 3 (on_seg (pt3 (-1) 0 0) (pt3 1 0 0)) (on_seg (pt3 0 (- 1) 1) (pt3 0 1 1)) /\
  angle_above 0 (pt3 (-1) 0 0) (pt3 1 0 0) (pt3 0 (- 1) 1) (pt3 0 1 1).
Proof.
split.
  by move=> [x [y [[s [_ ->]] [t [_ ->]] h]]]; move: (h 2%N isT); rewrite /seg_at /= => k; lra.
by right; rewrite /inner !big_ord_recl !big_ord0 /=; lra.
Qed.

(* ---- C73 ---- *)

(* a reported intersection is one *)
Theorem C73_intersection_sound (e0 e1 t0 t1 t2 : vec) : et_intersected e0 e1 t0 t1 t2 ->
  meet 3 (on_seg e0 e1) (on_tri t0 t1 t2).
Proof. by move/et_sound => [x [y [h1 h2 h3]]]; exists x, y; split=> //; apply/coords. Qed.

(* the test decides whether an edge and a triangle meet, if the edge is not
   parallel to the plane of the triangle *)
Theorem C73_intersection (e0 e1 t0 t1 t2 : vec) : proper_tri 3 t0 t1 t2 ->
  ~ in_plane t0 t1 t2 (fun i => e1 i - e0 i) ->
  et_intersected e0 e1 t0 t1 t2 <-> meet 3 (on_seg e0 e1) (on_tri t0 t1 t2).
Proof.
move=> pr np; split; first exact: C73_intersection_sound.
move=> [x [y [h1 h2 /coords h3]]]; apply: et_complete h1 h2 h3.
by apply: det_n0 => // s t h; apply: np; exists s, t.
Qed.

(* an edge in the plane of the triangle is never reported *)
Theorem C73_coplanar_refuted :
  let e0 := pt3 0 0 0 in let e1 := pt3 1 1 0 in
  let t0 := pt3 0 0 0 in let t1 := pt3 1 0 0 in let t2 := pt3 0 1 0 in
  meet 3 (on_seg e0 e1) (on_tri t0 t1 t2) /\ ~~ et_intersected e0 e1 t0 t1 t2.
Proof.
split.
  exists (seg_at (pt3 0 0 0) (pt3 1 1 0) 0), (tri_at (pt3 0 0 0) (pt3 1 0 0) (pt3 0 1 0) 0 0).
  split; first by exists 0; rewrite lexx ler01.
    by exists 0, 0; split=> //; lra.
  by case=> [|[|[|//]]] _; rewrite /seg_at /tri_at /=; fld.
rewrite /et_intersected !det_cols; case: ifP => // _.
by rewrite (_ : _ == 0) //; apply/eqP; rewrite sdot3 !crossE /vsub /=; fld.
Qed.
Example C73_hit : et_intersected (pt3 4%:R^-1 4%:R^-1 (-1)) (pt3 4%:R^-1 4%:R^-1 1) (pt3 0 0 0) (pt3 1 0 0) (pt3 0 1 0) /\
  ~ in_plane (pt3 0 0 0) (pt3 1 0 0) (pt3 0 1 0) (fun i => pt3 4%:R^-1 4%:R^-1 1 i - pt3 4%:R^-1 4%:R^-1 (-1) i).
Proof.
have np : ~ in_plane (pt3 0 0 0) (pt3 1 0 0) (pt3 0 1 0) (fun i => pt3 4%:R^-1 4%:R^-1 1 i - pt3 4%:R^-1 4%:R^-1 (-1) i).
  by move=> [s [t h]]; move: (h 2%N isT) => /= k; lra.
split=> //; apply/(C73_intersection _ np); first exact: C71_unit_triangle.
have q0 : 0 < (4%:R^-1 : T) by rewrite invr_gt0 ltr0n.
have q1 : (4%:R^-1 : T) + 4%:R^-1 <= 1.
  by rewrite -mulr2n -[_ *+ 2]mulr_natr mulrC ler_pdivr_mulr ?ltr0n // mul1r ler_nat.
have i : 0 <= (2%:R^-1 : T) <= 1.
  by rewrite invr_ge0 ler0n /= invf_le1 ?ltr0n // ler1n.
have two : (2%:R : T) <> 0 by apply/eqP; rewrite pnatr_eq0.
exists (seg_at (pt3 4%:R^-1 4%:R^-1 (-1)) (pt3 4%:R^-1 4%:R^-1 1) 2%:R^-1),
       (tri_at (pt3 0 0 0) (pt3 1 0 0) (pt3 0 1 0) 4%:R^-1 4%:R^-1).
split; first by exists 2%:R^-1.
  by exists 4%:R^-1, 4%:R^-1; split=> //; exact: ltW.
move: (4%:R^-1 : T) => z.
by case=> [|[|[|//]]] _; rewrite /seg_at /tri_at /=; fld.
Qed.

(* the mollifier lies between 0 and 1, is 0 exactly for parallel edges and
   reaches 1 with slope 0 at the threshold *)
Theorem C73_mollifier (ea0 ea1 eb0 eb1 : vec) (eps : T) : 0 < eps ->
  let u := fun i => ea1 i - ea0 i in let v := fun i => eb1 i - eb0 i in
  let sin2 := inner 3 u u * inner 3 v v - inner 3 u v * inner 3 u v in
  let m := mollifier_ee ea0 ea1 eb0 eb1 eps in
  [/\ 0 <= m <= 1, m = 0 <-> sin2 = 0, m = 1 <-> eps <= sin2 &
      m = 1 - (if sin2 < eps then ((eps - sin2) / eps) ^+ 2 else 0)].
Proof.
move=> e0 u v sin2 m.
have c : cn2_ee ea0 ea1 eb0 eb1 = sin2 by rewrite /cn2_ee l2E lagrange.
have s0 : 0 <= sin2 by rewrite -c /cn2_ee l2E sdot_ge0.
have mE : m = 1 - (if sin2 < eps then ((eps - sin2) / eps) ^+ 2 else 0).
  by rewrite /m /mollifier_ee c; case: ifP => _; rewrite ?subr0 // eem_form // gt_eqF.
rewrite mE; case: ltrP => h; last first.
  split; rewrite ?subr0 ?ler01 ?lexx //; split=> // z; lra.
have [q [qe E]] := quo_ok (eps - sin2) e0.
have -> : (eps - sin2) / eps = q by move: qe; rewrite /quo (gt_eqF e0) => -[].
have q0 : 0 < q by rewrite -(pmulr_lgt0 _ e0) E; lra.
have q1 : q <= 1 by rewrite -(ler_pmul2r e0) E; lra.
rewrite expr2; have qq := mulr_gt0 q0 q0.
split=> //; first by apply/andP; split; nra.
  split=> z.
    have qe1 : q = 1 by nra.
    by rewrite qe1 in E; lra.
  have qe1 : q = 1.
    by apply: (mulIf (negbT (gt_eqF e0))); rewrite E z; lra.
  by rewrite qe1; lra.
split=> z; last by [].
by exfalso; move: z qq; clear => z qq; lra.
Qed.

(* g_EEM and H_EEM are the first and second derivatives of EEM *)
Theorem C73_mollifier_derivatives (eps x : T) : eps != 0 ->
  expansion2 (fun x => EEM x eps) x (EEM x eps) (g_EEM x eps) (H_EEM x eps) /\
  g_EEM eps eps = 0.
Proof.
move=> n; split; first by move=> h; apply: eem_taylor.
by rewrite /g_EEM mulNr mul1r mulVf // addNr mulr0.
Qed.

(* dist_grad_pp and dist_hess_pp are the first and second derivatives of the
   point-point distance; h is a displacement of both points *)
Theorem C73_point_point_derivatives (n : nat) (a b h : vec) : n = 2%N \/ n = 3%N ->
  dist2_pp n (fun i => a i + h i) (fun i => b i + h (n + i)%N) =
  dist2_pp n a b
  + \sum_(d < n) (dist_grad_pp n a b 0 d * h d + dist_grad_pp n a b 1 d * h (n + d)%N)
  + (\sum_(i < n + n) \sum_(j < n + n) dist_hess_pp T n i j * h i * h j) / 2%:R.
Proof.
move=> n23; rewrite hess_23 // mulrC mulKf ?pnatr_eq0 //.
exact: (pp_expand n a b h (fun i => h (n + i)%N)).
Qed.
(* the gradient is right in every dimension *)
Theorem C73_point_point_gradient (n : nat) (a b ha hb : vec) :
  dist2_pp n (fun i => a i + ha i) (fun i => b i + hb i) =
  dist2_pp n a b
  + \sum_(d < n) (dist_grad_pp n a b 0 d * ha d + dist_grad_pp n a b 1 d * hb d)
  + dist2 n ha hb.
Proof. exact: pp_expand. Qed.
(* the second derivative in one dimension lacks the mixed terms: moving both
   points along leaves the distance unchanged, the expansion does not *)
Theorem C73_one_dimension_hessian_refuted (a b : vec) :
  let h := fun _ => 1 : T in
  dist2_pp 1 (fun i => a i + h i) (fun i => b i + h i) = dist2_pp 1 a b /\
  dist2_pp 1 a b
  + \sum_(d < 1) (dist_grad_pp 1 a b 0 d * h d + dist_grad_pp 1 a b 1 d * h (1 + d)%N)
  + (\sum_(i < 1 + 1) \sum_(j < 1 + 1) dist_hess_pp T 1 i j * h i * h j) / 2%:R = dist2_pp 1 a b + 2%:R.
Proof.
have two : (2%:R : T) <> 0 by apply/eqP; rewrite pnatr_eq0.
move=> h; split; first by rewrite /dist2_pp !l2E !sdot1 /vsub /h; fld.
have [g0 g1] := @grad_at T 1 a b 0 isT.
by rewrite !big_ord_recl !big_ord0 /= g0 g1 /h /dist_hess_pp /=; fld.
Qed.
End Props.
Print Assumptions C71_point_edge.
Print Assumptions C71_point_interval.
Print Assumptions C71_point_triangle.
Print Assumptions C71_point_triangle_category.
Print Assumptions C71_degenerate_refuted.
Print Assumptions C71_one_dimension_refuted.
Print Assumptions C72_edge_edge.
Print Assumptions C72_edge_edge_category.
Print Assumptions C72_integer_coordinates.
Print Assumptions C72_edge_edge_attained.
Print Assumptions C72_unclassified.
Print Assumptions C72_crossing_refuted.
Print Assumptions C72_point_second_refuted.
Print Assumptions C72_short_refuted.
Print Assumptions C73_intersection_sound.
Print Assumptions C73_intersection.
Print Assumptions C73_coplanar_refuted.
Print Assumptions C73_mollifier.
Print Assumptions C73_mollifier_derivatives.
Print Assumptions C73_point_point_derivatives.
Print Assumptions C73_point_point_gradient.
Print Assumptions C73_one_dimension_hessian_refuted.
