(* C91: the Jacobians of the contact deformation measures. *)
From Coq Require Import Reals List Lra Lia.
From Verif Require Import FricModel FricSpec DgModel DgSpec DgProofs3 PfModel PfSpec PfProofs2.
Import ListNotations.
Local Open Scope R_scope.

(* Two different points: the six entries are the gradient of distance / dHat. *)
Theorem C91_point_point x0 x1 d0 d1 dHat : dHat <> 0 -> x0 <> x1 ->
  is_gradient (fun t => dist_pp (moved x0 d0 t) (moved x1 d1 t) / dHat) (pFpx_pp2 x0 x1 dHat) (coords [d0; d1]).
Proof.
  intros Hd H. assert (P : 0 < dist_pp x0 x1) by (apply sqrt_lt_R0, norm_sqr_pos; now apply vsub_nz).
  exact (PP2_distance x0 x1 d0 d1 dHat Hd P).
Qed.
(* A point off the line of a proper edge: the last of four columns is the gradient of distance / dHat. *)
Theorem C91_point_edge x0 x1 x2 d0 d1 d2 dHat : dHat <> 0 -> x1 <> x2 -> 0 < dist_pe x0 x1 x2 ->
  is_gradient (fun t => dist_pe (moved x0 d0 t) (moved x1 d1 t) (moved x2 d2 t) / dHat) (column 4 3 (pFpx_pe2 x0 x1 x2 dHat)) (coords [d0; d1; d2]) /\
  only_columns 9 4 [3%nat] (pFpx_pe2 x0 x1 x2 dHat).
Proof. intros Hd HD Hf. split; [now apply PE2_distance|now apply PE2_blank]. Qed.
(* The lines of two edges that neither meet nor are parallel: the last of nine columns. *)
Theorem C91_edge_edge x0 x1 x2 x3 d0 d1 d2 d3 dHat : dHat <> 0 -> cross (vsub x1 x0) (vsub x3 x2) <> zero -> 0 < dist_ee x0 x1 x2 x3 ->
  is_gradient (fun t => dist_ee (moved x0 d0 t) (moved x1 d1 t) (moved x2 d2 t) (moved x3 d3 t) / dHat) (column 9 8 (pFpx_ee2 x0 x1 x2 x3 dHat)) (coords [d0; d1; d2; d3]) /\
  only_columns 12 9 [8%nat] (pFpx_ee2 x0 x1 x2 x3 dHat).
Proof. intros Hd HD Hf. split; [now apply EE2_distance|now apply EE2_blank]. Qed.
(* A point off the plane of a proper triangle: the last of nine columns. *)
Theorem C91_point_triangle x0 x1 x2 x3 d0 d1 d2 d3 dHat : dHat <> 0 -> cross (vsub x2 x1) (vsub x3 x1) <> zero -> 0 < dist_pt x0 x1 x2 x3 ->
  is_gradient (fun t => dist_pt (moved x0 d0 t) (moved x1 d1 t) (moved x2 d2 t) (moved x3 d3 t) / dHat) (column 9 8 (pFpx_pt2 x0 x1 x2 x3 dHat)) (coords [d0; d1; d2; d3]) /\
  only_columns 12 9 [8%nat] (pFpx_pt2 x0 x1 x2 x3 dHat).
Proof. intros Hd HD Hf. split; [now apply PT2_distance|now apply PT2_blank]. Qed.
(* Nearly parallel edges. Column 4 is the gradient of the area spanned by the two edges; column 8 is that of
   distance / dHat, where the closest points are: two end points, ... *)
Theorem C91_parallel_point_point x0 x1 x2 x3 d0 d1 d2 d3 dHat : dHat <> 0 -> x0 <> x1 -> cross (vsub x2 x0) (vsub x3 x1) <> zero ->
  let m := pFpx_ppp x0 x1 x2 x3 dHat in
  is_gradient (fun t => area (vsub (moved x2 d2 t) (moved x0 d0 t)) (vsub (moved x3 d3 t) (moved x1 d1 t))) (column 9 4 m) (coords [d0; d1; d2; d3]) /\
  is_gradient (fun t => dist_pp (moved x0 d0 t) (moved x1 d1 t) / dHat) (column 9 8 m) (coords [d0; d1; d2; d3]) /\
  only_columns 12 9 [4%nat; 8%nat] m.
Proof.
  intros Hd H Hg. assert (P : 0 < dist_pp x0 x1) by (apply sqrt_lt_R0, norm_sqr_pos; now apply vsub_nz).
  split; [now apply PPP_area|]. split; [now apply PPP_distance|now apply PPP_blank].
Qed.
(* ... an end point of the edge x0 x3 and a point of the edge x1 x2, ... *)
Theorem C91_parallel_point_edge x0 x1 x2 x3 d0 d1 d2 d3 dHat : dHat <> 0 -> x1 <> x2 -> 0 < dist_pe x0 x1 x2 -> cross (vsub x3 x0) (vsub x2 x1) <> zero ->
  let m := pFpx_ppe x0 x1 x2 x3 dHat in
  is_gradient (fun t => area (vsub (moved x3 d3 t) (moved x0 d0 t)) (vsub (moved x2 d2 t) (moved x1 d1 t))) (column 9 4 m) (coords [d0; d1; d2; d3]) /\
  is_gradient (fun t => dist_pe (moved x0 d0 t) (moved x1 d1 t) (moved x2 d2 t) / dHat) (column 9 8 m) (coords [d0; d1; d2; d3]) /\
  only_columns 12 9 [4%nat; 8%nat] m.
Proof. intros Hd HD Hf Hg. split; [now apply PPE_area|]. split; [now apply PPE_distance|now apply PPE_blank]. Qed.
(* ... points of both edges. *)
Theorem C91_parallel_edge_edge x0 x1 x2 x3 d0 d1 d2 d3 dHat : dHat <> 0 -> cross (vsub x1 x0) (vsub x3 x2) <> zero -> 0 < dist_ee x0 x1 x2 x3 ->
  let m := pFpx_pee x0 x1 x2 x3 dHat in
  is_gradient (fun t => area (vsub (moved x1 d1 t) (moved x0 d0 t)) (vsub (moved x3 d3 t) (moved x2 d2 t))) (column 9 4 m) (coords [d0; d1; d2; d3]) /\
  is_gradient (fun t => dist_ee (moved x0 d0 t) (moved x1 d1 t) (moved x2 d2 t) (moved x3 d3 t) / dHat) (column 9 8 m) (coords [d0; d1; d2; d3]) /\
  only_columns 12 9 [4%nat; 8%nat] m.
Proof. intros Hd HD Hf. split; [now apply PEE_area|]. split; [now apply PEE_distance|now apply PEE_blank]. Qed.
(* two crossing edges at distance 2, and a point 2 above a triangle, with dHat = 4 *)
Example C91_ex : let o := V3 0 0 0 in let x := V3 1 0 0 in let y := V3 0 1 0 in let up := V3 0 0 2 in
  dist_ee o x up (vadd y up) = 2 /\ nth (9 * 8 + 8) (pFpx_ee2 o x up (vadd y up) 4) 0 = 1 / 4 /\
  nth (9 * 3 + 4) (pFpx_pee o x up (vadd y up) 4) 0 = 1 /\
  cross (vsub x o) (vsub (vadd y up) up) <> zero /\ dist_pt up o x y = 2 /\ nth (9 * 2 + 8) (pFpx_pt2 up o x y 4) 0 = 1 / 4.
Proof.
  assert (S4 : sqrt 4 = 2) by (replace 4 with (2 * 2) by ring; apply sqrt_square; lra).
  cbn zeta. split; [|split; [|split; [|split; [|split]]]].
  - transitivity (sqrt 4); [unfold dist_ee; f_equal|exact S4]. unfold dist2_ee, norm_sqr, dot, cross, vsub, vadd. cbn. field.
  - unfold pFpx_ee2, on_4, detail_ee2, real, vadd. cbn. match goal with |- context [sqrt ?a] => replace a with 4 by field end. rewrite S4. field.
  - unfold pFpx_pee, on_4, detail_peeV0V1, real, vadd. cbn. match goal with |- context [sqrt ?a] => replace a with 1 by field end. rewrite sqrt_1. field.
  - unfold cross, vsub, vadd, zero. cbn. intros E. injection E. lra.
  - transitivity (sqrt 4); [unfold dist_pt; f_equal|exact S4]. unfold dist2_pt, norm_sqr, dot, cross, vsub. cbn. field.
  - unfold pFpx_pt2, on_4, detail_pt2, real. cbn. match goal with |- context [sqrt ?a] => replace a with 4 by field end. rewrite S4. field.
Qed.

Print Assumptions C91_point_point.
Print Assumptions C91_point_edge.
Print Assumptions C91_edge_edge.
Print Assumptions C91_point_triangle.
Print Assumptions C91_parallel_point_point.
Print Assumptions C91_parallel_point_edge.
Print Assumptions C91_parallel_edge_edge.
