(* Signed distance of cylinders; bounding boxes of the solids. *)
From mathcomp Require Import all_ssreflect all_algebra.
From Coq Require Import Field.
From Verif Require Import FieldTac NraTac MatModel DistModel AlsModel DistSpec AlsSpec DistProofs2 AlsProofs AlsProofs2.
From Verif Require MatProofs.
Set Implicit Arguments.
Unset Strict Implicit.
Unset Printing Implicit Defensive.
Import Order.TTheory GRing.Theory Num.Theory.
Local Open Scope ring_scope.

Section Cyl.
Variable T : realFieldType.
Let F : fieldType := [fieldType of T].
Add Field ffd : (cfield F).
Ltac fld := to_fld F; field.
Ltac nra := fnra_ T.
Ltac lra := flra_ T.
Notation vec := (nat -> T).

(* the two other axes *)
Definition ax (d j : nat) : nat := if (j < d)%N then j else j.+1.
Definition flat (d : nat) (x : vec) : vec := fun j => x (ax d j).
Definition lift (d : nat) (y : vec) (h : T) : vec :=
  fun i => if i == d then h else if (i < d)%N then y i else y i.-1.
Lemma lift_d d y h : lift d y h d = h.
Proof. by rewrite /lift eqxx. Qed.
Lemma flat_lift d y h j : flat d (lift d y h) j = y j.
Proof.
rewrite /flat /lift /ax; case: ltnP => c; first by rewrite ltn_eqF // c.
by rewrite gtn_eqF ?ltnS // ltnNge leqW.
Qed.
Lemma radialE b d (x : vec) : (d < 3)%N -> radial2 b d x = dist2 2 (flat d x) (flat d b).
Proof.
rewrite /radial2 /dist2; case: d => [|[|[|//]]] _;
  rewrite big_mkcond !big_ord_recr !big_ord0 /= /flat /ax /= !expr2; by fld.
Qed.
Lemma dist2_split d (x y : vec) : (d < 3)%N ->
  dist2 3 x y = dist2 2 (flat d x) (flat d y) + (x d - y d) ^+ 2.
Proof.
rewrite /dist2; case: d => [|[|[|//]]] _;
  rewrite !big_ord_recr !big_ord0 /= /flat /ax /= !expr2; by fld.
Qed.
Lemma dist2_lift d (x y b : vec) h : (d < 3)%N ->
  dist2 3 x (lift d y h) = dist2 2 (flat d x) y + (x d - h) ^+ 2 /\
  radial2 b d (lift d y h) = dist2 2 y (flat d b).
Proof.
move=> dl; split; first rewrite (dist2_split _ _ dl) lift_d; last rewrite radialE //.
  by congr (_ + _); apply: eq_bigr => j _; rewrite flat_lift.
by apply: eq_bigr => j _; rewrite flat_lift.
Qed.
Lemma dist2_self n (x : vec) : dist2 n x x = 0.
Proof. by apply: big1 => i _; rewrite subrr expr0n. Qed.
End Cyl.

Section Sd.
Variable T : rcfType.
Notation vec := (nat -> T).
Lemma acrossE b d (x : vec) : (d < 3)%N -> l2NormSqr 2 (across b d x) = radial2 b d x.
Proof.
move=> dl; rewrite radialE // l2E.
by move: dl; case: d => [|[|[|//]]] _; rewrite /dist2 /sdot !big_ord_recr !big_ord0 /= /across /= /flat /ax /vset /= !expr2.
Qed.
Section One.
Variables (b : vec) (R l : T) (d : nat) (x : vec).
Hypotheses (dl : (d < 3)%N) (r0 : 0 <= R) (l0 : 0 <= l).
Let D := Num.sqrt (radial2 b d x).
Let radial_ge0 (y : vec) : 0 <= radial2 b d y.
Proof. by rewrite radialE // dist2_ge0. Qed.
Let dsq : dist2 2 (flat d x) (flat d b) = D ^+ 2.
Proof. by rewrite sqr_sqrtr // radialE. Qed.
Let d0 : 0 <= D. Proof. exact: sqrtr_ge0. Qed.
(* the circle *)
Lemma circle_foot : exists2 y : vec, dist2 2 y (flat d b) = R ^+ 2 & (D - R) ^+ 2 = dist2 2 (flat d x) y.
Proof. exact: (@sphere_foot _ 2 (flat d b) (flat d x) D R isT r0 d0 dsq). Qed.
Lemma circle_lower (y : vec) : let E := Num.sqrt (radial2 b d y) in
  [/\ 0 <= E, E ^+ 2 = radial2 b d y & (D - E) ^+ 2 <= dist2 2 (flat d x) (flat d y)].
Proof.
move=> E; have e0 : 0 <= E by exact: sqrtr_ge0.
have es : E ^+ 2 = radial2 b d y by rewrite sqr_sqrtr.
split=> //; apply: (sphere_lower d0 e0 dsq); by rewrite es radialE.
Qed.
Lemma in_radius (y : vec) : (radial2 b d y <= R ^+ 2) = (Num.sqrt (radial2 b d y) <= R).
Proof. by rewrite -{1}[radial2 b d y]sqr_sqrtr // ler_sqr ?nnegrE ?sqrtr_ge0. Qed.

Lemma cylinder_ok :
  signed_distance 3 (in_cylinder b R l d) (cylinder_boundary b R l d) x (cylinder_sd b R l d x).
Proof.
have [f fo fe] := circle_foot.
have cap_foot h : b d <= h <= b d + l -> D <= R ->
    in_cylinder b R l d (lift d (flat d x) h) /\ (x d - h) ^+ 2 = dist2 3 x (lift d (flat d x) h).
  move=> hh dr; have [e1 e2] := dist2_lift x (flat d x) b h dl.
  split; last by rewrite e1 dist2_self add0r.
  by split; rewrite ?lift_d // e2 -(radialE b x dl) in_radius.
have side_foot h : b d <= h <= b d + l ->
    [/\ in_cylinder b R l d (lift d f h), radial2 b d (lift d f h) = R ^+ 2 &
     (D - R) ^+ 2 + (x d - h) ^+ 2 = dist2 3 x (lift d f h)].
  move=> hh; have [e1 e2] := dist2_lift x f b h dl.
  split; [split|..]; rewrite ?lift_d ?e1 ?e2 ?fo ?fe ?lexx //.
have lower (y : vec) : let E := Num.sqrt (radial2 b d y) in (D - E) ^+ 2 + (x d - y d) ^+ 2 <= dist2 3 x y.
  by move=> E; have [_ _ h] := circle_lower y; rewrite (dist2_split _ _ dl) ler_add2r.
have bl : b d <= b d <= b d + l by rewrite lexx ler_addl.
have bh : b d <= b d + l <= b d + l by rewrite lexx ler_addl l0.
rewrite /cylinder_sd (acrossE _ _ dl) -/D.
have inx : in_cylinder b R l d x <-> (D <= R) && (b d <= x d <= b d + l).
  by rewrite /in_cylinder in_radius -/D; split=> [[-> ->]//|/andP[-> ->]].
(* the solid is far outside of the caps *)
have out_below (y : vec) : x d < b d -> in_cylinder b R l d y -> (b d - x d) ^+ 2 <= (x d - y d) ^+ 2.
  move=> c [_ /andP[h _]]; apply: le_sqr2; first by rewrite subr_ge0 ltW.
  by right; rewrite opprB ler_sub.
have out_above (y : vec) : b d + l < x d -> in_cylinder b R l d y -> (x d - (b d + l)) ^+ 2 <= (x d - y d) ^+ 2.
  move=> c [_ /andP[_ h]]; apply: le_sqr2; first by rewrite subr_ge0 ltW.
  by left; rewrite ler_sub.
have out_side (y : vec) : R < D -> in_cylinder b R l d y -> (D - R) ^+ 2 <= (D - Num.sqrt (radial2 b d y)) ^+ 2.
  move=> c [h _]; rewrite in_radius in h; apply: le_sqr2; first by rewrite subr_ge0 ltW.
  by left; rewrite ler_sub.
have sqrt_case (s : T) : R < D -> s != 0 -> 0 < Num.sqrt ((D - R) * (D - R) + s * s) /\
   Num.sqrt ((D - R) * (D - R) + s * s) ^+ 2 = (D - R) ^+ 2 + s ^+ 2.
  move=> c ns; rewrite -!expr2 sqr_sqrtr ?addr_ge0 ?sqr_ge0 //; split=> //.
  by rewrite sqrtr_gt0 ltr_paddl ?sqr_ge0 // lt_neqAle sqr_ge0 eq_sym sqrf_eq0 ns.
case: (ltrP (x d) (b d)) => xb.
  have ninx : ~ in_cylinder b R l d x by rewrite inx => /andP[_ /andP[h _]]; rewrite leNgt xb in h.
  split=> // _; case: (ltrP R D) => dr.
    have [|p ->] := sqrt_case (b d - x d) dr; first by rewrite subr_eq0 gt_eqF.
    split=> //; have [s1 _ s3] := side_foot _ bl; apply: least_pt.
      by exists (lift d f (b d)) => //; rewrite -s3 -[in RHS](sqrrN (x d - b d)) opprB.
    move=> y iny; apply: le_trans (lower y); apply: ler_add; [exact: out_side|exact: out_below].
  split; first by rewrite subr_gt0.
  have [s1 s3] := cap_foot _ bl dr; apply: least_pt.
    by exists (lift d (flat d x) (b d)) => //; rewrite -s3 -sqrrN opprB.
  move=> y iny; apply: le_trans (lower y); apply: le_trans (out_below y xb iny) _.
  by rewrite ler_addr sqr_ge0.
case: (ltrP (b d + l) (x d)) => xt.
  have ninx : ~ in_cylinder b R l d x by rewrite inx => /andP[_ /andP[_ h]]; rewrite leNgt xt in h.
  split=> // _; case: (ltrP R D) => dr.
    have [|p ->] := sqrt_case (x d - (b d + l)) dr; first by rewrite subr_eq0 gt_eqF.
    split=> //; have [s1 _ s3] := side_foot _ bh; apply: least_pt; first by exists (lift d f (b d + l)).
    move=> y iny; apply: le_trans (lower y); apply: ler_add; [exact: out_side|exact: out_above].
  split; first by rewrite subr_gt0.
  have [s1 s3] := cap_foot _ bh dr; apply: least_pt; first by exists (lift d (flat d x) (b d + l)).
  move=> y iny; apply: le_trans (lower y); apply: le_trans (out_above y xt iny) _.
  by rewrite ler_addr sqr_ge0.
have hx : b d <= x d <= b d + l by rewrite xb xt.
case: (ltrP R D) => dr.
  have ninx : ~ in_cylinder b R l d x by rewrite inx => /andP[h _]; rewrite leNgt dr in h.
  split=> // _; split; first by rewrite subr_gt0.
  have [s1 _ s3] := side_foot _ hx; apply: least_pt.
    by exists (lift d f (x d)) => //; rewrite -s3 subrr expr0n addr0.
  move=> y iny; apply: le_trans (lower y); apply: le_trans (out_side y dr iny) _.
  by rewrite ler_addl sqr_ge0.
split=> h; last by case: h; apply/inx; rewrite dr.
have [m1 [m2 m3]] := zminP (b d + l - x d) (x d - b d).
have [n1 [n2 n3]] := zminP (zmin (b d + l - x d) (x d - b d)) (R - D).
set m := zmin (zmin _ _) _ in n1 n2 n3 *.
have m0 : 0 <= m.
  by case: n3 => ->; [case: m3 => ->|]; rewrite subr_ge0.
split; first by rewrite oppr_le0.
rewrite sqrrN; apply: least_pt.
  case: n3 => ->; [case: m3 => ->|].
  - have [s1 s3] := cap_foot _ bh dr; exists (lift d (flat d x) (b d + l)).
      by split=> //; right; right; rewrite lift_d.
    by rewrite -s3 -sqrrN opprB.
  - have [s1 s3] := cap_foot _ bl dr; exists (lift d (flat d x) (b d)) => //.
    by split=> //; right; left; rewrite lift_d.
  - have [s1 s2 s3] := side_foot _ hx; exists (lift d f (x d)).
      by split=> //; left.
    by rewrite -s3 subrr [0 ^+ 2]expr0n addr0 -sqrrN opprB.
move=> y [iny bd]; apply: le_trans (lower y).
case: bd => [e|[e|e]].
- have -> : Num.sqrt (radial2 b d y) = R by rewrite e sqrtr_sqr ger0_norm.
  rewrite -[X in X <= _]addr0 ler_add ?sqr_ge0 //; apply: le_sqr2 => //.
  by right; rewrite opprB.
- rewrite -[X in X <= _]add0r ler_add ?sqr_ge0 // e; apply: le_sqr2 => //.
  by left; exact: le_trans n1 m2.
- rewrite -[X in X <= _]add0r ler_add ?sqr_ge0 // e; apply: le_sqr2 => //.
  by right; rewrite opprB; exact: le_trans n1 m1.
Qed.
End One.
End Sd.
