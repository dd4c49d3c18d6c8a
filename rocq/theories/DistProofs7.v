(* dist2_pt_unclassified. *)
From mathcomp Require Import all_ssreflect all_algebra.
From Coq Require Import Field.
From Verif Require Import FieldTac NraTac MatModel DistModel DistSpec DistProofs DistProofs2 DistProofs6.
Set Implicit Arguments.
Unset Strict Implicit.
Unset Printing Implicit Defensive.
Import Order.TTheory GRing.Theory Num.Theory.
Local Open Scope ring_scope.

Section Pt.
Variable T : realFieldType.
Let F : fieldType := [fieldType of T].
Add Field ffd : (cfield F).
Ltac fld := to_fld F; field.
Ltac nra := fnra_ T.
Ltac lra := flra_ T.
Notation vec := (nat -> T).
Notation sdot := (sdot 3).

Lemma det_cols (a b c : vec) : determinant 3 (mat_cols a b c) = sdot a (cross3 b c).
Proof. by rewrite /= /det_3 sdot3 !crossE /=; fld. Qed.
Lemma d_D (x f m : vec) : sdot x (cross3 (cross3 f m) m) = sdot x m * sdot f m - sdot x f * sdot m m.
Proof. by rewrite !sdot3 !crossE; fld. Qed.
Lemma d_2 (x f m : vec) : sdot f (cross3 x m) = - sdot x (cross3 f m).
Proof. by rewrite !sdot3 !crossE; fld. Qed.
Lemma dcross (x f e0 e1 : vec) :
  sdot x (cross3 f (cross3 e0 e1)) = sdot x e0 * sdot f e1 - sdot x e1 * sdot f e0.
Proof. by rewrite !sdot3 !crossE; fld. Qed.
Lemma orth0 (a b : vec) : sdot a (cross3 a b) = 0.
Proof. by rewrite !sdot3 !crossE; fld. Qed.
Lemma orth1 (a b : vec) : sdot b (cross3 a b) = 0.
Proof. by rewrite !sdot3 !crossE; fld. Qed.
Lemma lagrange (a b : vec) : sdot (cross3 a b) (cross3 a b) = sdot a a * sdot b b - sdot a b * sdot a b.
Proof. by rewrite !sdot3 !crossE; fld. Qed.

Lemma qcmp (x y : T) : 0 < y ->
  [/\ qgt (quo x y) 0 = (0 < x), qlt (quo x y) 1 = (x < y), qge (quo x y) 0 = (0 <= x),
      qle (quo x y) 0 = (x <= 0) & qge (quo x y) 1 = (y <= x)].
Proof.
move=> yp; rewrite /quo (gt_eqF yp) /=.
by rewrite pmulr_lgt0 ?invr_gt0 // pmulr_lge0 ?invr_gt0 // pmulr_lle0 ?invr_gt0 //
  ltr_pdivr_mulr // mul1r ler_pdivl_mulr // mul1r.
Qed.

Lemma quo_scale (x y z : T) : z != 0 -> y != 0 -> quo (x * z) (y * z) = quo x y.
Proof.
move=> z0 y0; rewrite /quo mulf_eq0 (negbTE z0) (negbTE y0) /=; congr Some.
by rewrite -mulf_div divff // mulr1.
Qed.

Lemma params_eq (f m x : vec) : sdot f m = 0 -> 0 < sdot f f -> 0 < sdot m m ->
  pt_params f (cross3 f m) x m
  = (quo (sdot x f) (sdot f f), quo (sdot x (cross3 f m)) (sdot f f * sdot m m)).
Proof.
move=> o fp mp; rewrite /pt_params !det_cols !d_D o !mulr0 !sub0r d_2.
have nm : - sdot m m != 0 by rewrite oppr_eq0 (gt_eqF mp).
have nf : sdot f f != 0 by rewrite (gt_eqF fp).
rewrite -!mulrN quo_scale //.
have -> : - sdot x (cross3 f m) = sdot x (cross3 f m) * (-1) by rewrite mulrN1.
have -> : sdot f f * - sdot m m = sdot f f * sdot m m * (-1) by rewrite mulrN1 mulrN.
by rewrite quo_scale // ?oppr_eq0 ?oner_eq0 // mulf_eq0 negb_or nf (gt_eqF mp).
Qed.

Section Tri.
Variables (p t0 t1 t2 : vec).
Hypothesis pr : proper_tri 3 t0 t1 t2.
Let e0 := vsub t1 t0.
Let e1 := vsub t2 t0.
Let d := vsub t0 p.
Let m := cross3 e0 e1.
Let a00 := sdot e0 e0.
Let a01 := sdot e0 e1.
Let a11 := sdot e1 e1.
Let b0 := sdot d e0.
Let b1 := sdot d e1.
Let D := a00 * a11 - a01 * a01.
Let E := a00 - (a01 + a01) + a11.
Let s := a01 * b1 - a11 * b0.
Let t := a01 * b0 - a00 * b1.

Lemma mE : sdot m m = D. Proof. exact: lagrange. Qed.
Lemma pos4 : [/\ 0 < a00, 0 < a11, 0 < D & 0 < E].
Proof. exact: (proper_pos pr). Qed.

Definition tri_type : nat :=
  if [&& 0 < - b0, - b0 < a00 & t <= 0] then 3%N else
  if [&& 0 < a00 + b0 - a01 - b1, a00 + b0 - a01 - b1 < E & D <= s + t] then 4%N else
  if [&& 0 < a11 + b1, a11 + b1 < a11 & s <= 0] then 5%N else
  if (- b0 <= 0) && (a11 <= a11 + b1) then 0%N else
  if (a00 + b0 - a01 - b1 <= 0) && (a00 <= - b0) then 1%N else
  if (a11 + b1 <= 0) && (E <= a00 + b0 - a01 - b1) then 2%N else 6%N.

Lemma type_eq : pt_distance_type p t0 t1 t2 = tri_type.
Proof.
have [p00 p11 pD pE] := pos4.
have mp : 0 < sdot m m by rewrite mE.
(* edge 0 *)
have x0 : sdot (vsub p t0) e0 = - b0 by rewrite /b0 !sdot3 /d /vsub; fld.
have x1 : sdot (vsub p t0) e1 = - b1 by rewrite /b1 !sdot3 /d /vsub; fld.
have y0 : sdot (vsub p t0) (cross3 e0 m) = - t by rewrite dcross x0 x1 /t -/a01 -/a00; fld.
have P0 := params_eq (vsub p t0) (orth0 e0 e1 : sdot e0 m = 0) p00 mp.
(* edge 1 *)
set f1 := vsub t2 t1.
have f1f : sdot f1 f1 = E by rewrite /E /a00 /a01 /a11 !sdot3 /f1 /e0 /e1 /vsub; fld.
have o1 : sdot f1 m = 0.
  have -> : sdot f1 m = sdot e1 m - sdot e0 m by rewrite !sdot3 /f1 /e0 /e1 /vsub; fld.
  by rewrite (orth0 e0 e1) (orth1 e0 e1) subrr.
have z1 : sdot (vsub p t1) f1 = a00 + b0 - a01 - b1.
  by rewrite /a00 /a01 /b0 /b1 !sdot3 /f1 /d /e0 /e1 /vsub; fld.
have y1 : sdot (vsub p t1) (cross3 f1 m) = s + t - D.
  have g0 : sdot (vsub p t1) e0 = - b0 - a00 by rewrite /a00 /b0 !sdot3 /d /e0 /vsub; fld.
  have g1 : sdot (vsub p t1) e1 = - b1 - a01 by rewrite /a01 /b1 !sdot3 /d /e0 /e1 /vsub; fld.
  have h0 : sdot f1 e0 = a01 - a00 by rewrite /a01 /a00 !sdot3 /f1 /e0 /e1 /vsub; fld.
  have h1 : sdot f1 e1 = a11 - a01 by rewrite /a01 /a11 !sdot3 /f1 /e0 /e1 /vsub; fld.
  by rewrite dcross g0 g1 h0 h1 /s /t /D; fld.
have f1p : 0 < sdot f1 f1 by rewrite f1f.
have P1 := params_eq (vsub p t1) o1 f1p mp.
(* edge 2 *)
set f2 := vsub t0 t2.
have f2f : sdot f2 f2 = a11 by rewrite /a11 !sdot3 /f2 /e1 /vsub; fld.
have o2 : sdot f2 m = 0.
  have -> : sdot f2 m = - sdot e1 m by rewrite !sdot3 /f2 /e0 /e1 /vsub; fld.
  by rewrite (orth1 e0 e1) oppr0.
have z2 : sdot (vsub p t2) f2 = a11 + b1.
  by rewrite /a11 /b1 !sdot3 /f2 /d /e1 /vsub; fld.
have y2 : sdot (vsub p t2) (cross3 f2 m) = - s.
  have g0 : sdot (vsub p t2) e0 = - b0 - a01 by rewrite /a01 /b0 !sdot3 /d /e0 /e1 /vsub; fld.
  have g1 : sdot (vsub p t2) e1 = - b1 - a11 by rewrite /a11 /b1 !sdot3 /d /e0 /e1 /vsub; fld.
  have h0 : sdot f2 e0 = - a01 by rewrite /a01 !sdot3 /f2 /e0 /e1 /vsub; fld.
  have h1 : sdot f2 e1 = - a11 by rewrite /a11 !sdot3 /f2 /e0 /e1 /vsub; fld.
  by rewrite dcross g0 g1 h0 h1 /s; fld.
have f2p : 0 < sdot f2 f2 by rewrite f2f.
have P2 := params_eq (vsub p t2) o2 f2p mp.
rewrite /pt_distance_type -/e0 -/e1 -/m -/f1 -/f2 P0 P1 P2 x0 y0 z1 y1 z2 y2 f1f f2f mE -/a00.
have [-> -> _ -> ->] := qcmp (- b0) p00.
have [_ _ -> _ _] := qcmp (- t) (mulr_gt0 p00 pD).
have [-> -> _ -> ->] := qcmp (a00 + b0 - a01 - b1) pE.
have [_ _ -> _ _] := qcmp (s + t - D) (mulr_gt0 pE pD).
have [-> -> _ -> ->] := qcmp (a11 + b1) p11.
have [_ _ -> _ _] := qcmp (- s) (mulr_gt0 p11 pD).
by rewrite oppr_ge0 subr_ge0 oppr_ge0.
Qed.

Lemma least_at (s' t' : T) : 0 <= s' -> 0 <= t' -> s' + t' <= 1 -> kkt a00 a01 a11 b0 b1 s' t' ->
  least_dist2 3 (eq p) (on_tri t0 t1 t2) (dist2 3 p (tri_at t0 t1 t2 s' t')).
Proof.
move=> h1 h2 h3 k; split.
  by exists p, (tri_at t0 t1 t2 s' t'); split=> //; exists s', t'.
by move=> x y <- [s1 [s2 [k1 k2 k3 ->]]]; apply: kkt_min.
Qed.
Lemma corner0 : dist2_pp 3 p t0 = dist2 3 p (tri_at t0 t1 t2 0 0).
Proof. by rewrite /dist2_pp l2E dist2E; apply: eq_bigr => i _; rewrite /vsub /tri_at; fld. Qed.
Lemma corner1 : dist2_pp 3 p t1 = dist2 3 p (tri_at t0 t1 t2 1 0).
Proof. by rewrite /dist2_pp l2E dist2E; apply: eq_bigr => i _; rewrite /vsub /tri_at; fld. Qed.
Lemma corner2 : dist2_pp 3 p t2 = dist2 3 p (tri_at t0 t1 t2 0 1).
Proof. by rewrite /dist2_pp l2E dist2E; apply: eq_bigr => i _; rewrite /vsub /tri_at; fld. Qed.

(* dist2_pe of a point and a line in space *)
Lemma pe3_at (q x y : vec) (s' : T) : 0 < sdot (vsub y x) (vsub y x) ->
  sdot (vsub y x) (vsub y x) * s' = sdot (vsub y x) (vsub q x) ->
  dist2_pe 3 q x y = Some (dist2 3 q (seg_at x y s')).
Proof.
move=> ap g; rewrite /dist2_pe num3 l2E.
have [r [-> Er]] := quo_ok (sdot (vsub q x) (vsub q x) * sdot (vsub y x) (vsub y x)
    - sdot (vsub y x) (vsub q x) * sdot (vsub y x) (vsub q x)) ap.
by congr Some; apply: pe_line.
Qed.

Lemma seg_tri (x y : vec) (s' s1 s2 : T) : (forall i, seg_at x y s' i = tri_at t0 t1 t2 s1 s2 i) ->
  dist2 3 p (seg_at x y s') = dist2 3 p (tri_at t0 t1 t2 s1 s2).
Proof. by move=> h; apply: eq_bigr => i _; rewrite h. Qed.

(* the plane *)
Lemma plane_at (s' t' : T) : a00 * s' + a01 * t' + b0 = 0 -> a01 * s' + a11 * t' + b1 = 0 ->
  dist2_pt p t0 t1 t2 = Some (dist2 3 p (tri_at t0 t1 t2 s' t')).
Proof.
move=> g1 g2; have [p00 p11 pD pE] := pos4.
rewrite /dist2_pt dotE l2E -/e0 -/e1 -/m mE.
have mp : 0 < D by [].
have [r [-> Er]] := quo_ok (sdot (vsub p t0) m * sdot (vsub p t0) m) pD; congr Some.
apply: (mulIf (negbT (gt_eqF pD))); rewrite Er tri_quad -/e0 -/e1 -/d -/a00 -/a01 -/a11 -/b0 -/b1.
have sE : s' * D = s.
  have : s' * D = a11 * (a00 * s' + a01 * t' + b0) - a01 * (a01 * s' + a11 * t' + b1) + s by rewrite /D /s; fld.
  by rewrite g1 g2 !mulr0 subrr add0r.
have tE : t' * D = t.
  have : t' * D = a00 * (a01 * s' + a11 * t' + b1) - a01 * (a00 * s' + a01 * t' + b0) + t by rewrite /D /t; fld.
  by rewrite g1 g2 !mulr0 subrr add0r.
have -> : (a00 * s' * s' + 2%:R * a01 * s' * t' + a11 * t' * t' + 2%:R * b0 * s' + 2%:R * b1 * t' + sdot d d) * D
  = (s' * (a00 * s' + a01 * t' + b0) + t' * (a01 * s' + a11 * t' + b1)) * D + b0 * (s' * D) + b1 * (t' * D) + sdot d d * D by fld.
rewrite g1 g2 sE tE !mulr0 addr0 mul0r add0r.
rewrite /s /t /D /a00 /a01 /a11 /b0 /b1 /m !sdot3 !crossE /d /vsub.
move: (e0 0%N) (e0 1%N) (e0 2%N) (e1 0%N) (e1 1%N) (e1 2%N) => *.
by fld.
Qed.

Lemma pt_unclassified (top : T) :
  exists2 r, dist2_pt_unclassified top p t0 t1 t2 = Some r & least_dist2 3 (eq p) (on_tri t0 t1 t2) r.
Proof.
have [p00 p11 pD pE] := pos4.
rewrite /dist2_pt_unclassified type_eq /tri_type.
case: ifP => h3.
  case/and3P: h3 => h1 h2 h3.
  have [q [_ qE]] := quo_ok (- b0) p00.
  have q0 : 0 <= q by nra.
  have q1 : q <= 1 by nra.
  exists (dist2 3 p (tri_at t0 t1 t2 q 0)).
    rewrite (@pe3_at p t0 t1 q) //.
      by congr Some; apply: seg_tri => i; rewrite /seg_at /tri_at; fld.
    rewrite -/e0 -/a00 mulrC qE /b0 !sdot3 /d /vsub; by fld.
  apply: least_at => //; first by rewrite addr0.
  have g : 0 <= (a01 * q + b1) * a00.
    have -> : (a01 * q + b1) * a00 = a01 * (q * a00) + b1 * a00 by fld.
    by rewrite qE; move: h3; rewrite /t => h3; lra.
  rewrite pmulr_lge0 // in g.
  by split; nra.
case: ifP => h4.
  case/and3P: h4 => h1 h2 h4.
  have [q [_ qE]] := quo_ok (a00 + b0 - a01 - b1) pE.
  have q0 : 0 <= q by nra.
  have q1 : q <= 1 by nra.
  have f1f : sdot (vsub t2 t1) (vsub t2 t1) = E by rewrite /E /a00 /a01 /a11 !sdot3 /e0 /e1 /vsub; fld.
  exists (dist2 3 p (tri_at t0 t1 t2 (1 - q) q)).
    rewrite (@pe3_at p t1 t2 q) ?f1f //.
      by congr Some; apply: seg_tri => i; rewrite /seg_at /tri_at; fld.
    rewrite mulrC qE /a00 /a01 /b0 /b1 !sdot3 /d /e0 /e1 /vsub; by fld.
  apply: least_at => //; [lra | lra |].
  move: h4 qE; rewrite /s /t /D /E => h4 qE.
  have g : a00 * (1 - q) + a01 * q + b0 = a01 * (1 - q) + a11 * q + b1 by lra.
  have k : (a00 * (1 - q) + a01 * q + b0) * E <= 0.
    have -> : (a00 * (1 - q) + a01 * q + b0) * E = (a00 + b0) * E - (a00 - a01) * (q * E) by fld.
    by rewrite /E qE; lra.
  have {}k : a00 * (1 - q) + a01 * q + b0 <= 0 by rewrite pmulr_lle0 // in k.
  split; rewrite -g.
  - have -> : forall x, x * (1 - q) + x * q = x by move=> x; fld.
    exact: k.
  - have -> : forall x, x * (1 - q) + x * q = x by move=> x; fld.
    exact: lexx.
  - have -> : forall x, x * (1 - q) + x * q = x by move=> x; fld.
    exact: lexx.
case: ifP => h5.
  case/and3P: h5 => h1 h2 h5.
  have [q [_ qE]] := quo_ok (- b1) p11.
  have q0 : 0 <= q by nra.
  have q1 : q <= 1 by nra.
  have f2f : sdot (vsub t0 t2) (vsub t0 t2) = a11 by rewrite /a11 !sdot3 /e1 /vsub; fld.
  exists (dist2 3 p (tri_at t0 t1 t2 0 q)).
    rewrite (@pe3_at p t2 t0 (1 - q)) ?f2f //.
      by congr Some; apply: seg_tri => i; rewrite /seg_at /tri_at; fld.
    rewrite mulrBr mulr1 [a11 * q]mulrC qE /a11 /b1 !sdot3 /d /e1 /vsub; by fld.
  apply: least_at => //; first by rewrite add0r.
  have g : 0 <= (a01 * q + b0) * a11.
    have -> : (a01 * q + b0) * a11 = a01 * (q * a11) + b0 * a11 by fld.
    by rewrite qE; move: h5; rewrite /s => h5; lra.
  rewrite pmulr_lge0 // in g.
  by split; nra.
case: ifP => h0.
  case/andP: h0 => h1 h2.
  exists (dist2 3 p (tri_at t0 t1 t2 0 0)); first by rewrite corner0.
  by apply: least_at; [lra | lra | lra | split; lra].
case: ifP => h1.
  case/andP: h1 => h1 h2.
  exists (dist2 3 p (tri_at t0 t1 t2 1 0)); first by rewrite corner1.
  by apply: least_at; [lra | lra | lra | split; lra].
case: ifP => h2.
  case/andP: h2 => h2 h2'.
  exists (dist2 3 p (tri_at t0 t1 t2 0 1)); first by rewrite corner2.
  by apply: least_at; [lra | lra | lra | split; move: h2'; rewrite /E; lra].
(* otherwise the closest point is inside *)
have [c [s' [t' [_ ft k]]]] := pt_category_kkt b0 b1 p00 p11 pD pE.
case: k => k0 k1 k2.
suff [g1 g2 [i1 i2 i3]] : [/\ a00 * s' + a01 * t' + b0 = 0, a01 * s' + a11 * t' + b1 = 0 & [/\ 0 <= s', 0 <= t' & s' + t' <= 1]].
  exists (dist2 3 p (tri_at t0 t1 t2 s' t')); first exact: plane_at.
  by apply: least_at => //; split.
case: c ft => [|[|[|[|[|[|[|//]]]]]]] /=.
- case=> sE tE; subst s' t'; move: h0; suff -> : (- b0 <= 0) && (a11 <= a11 + b1) by [].
  by apply/andP; split; lra.
- case=> sE tE; subst s' t'; move: h1; suff -> : (a00 + b0 - a01 - b1 <= 0) && (a00 <= - b0) by [].
  by apply/andP; split; lra.
- case=> sE tE; subst s' t'; move: h2; suff -> : (a11 + b1 <= 0) && (E <= a00 + b0 - a01 - b1) by [].
  by apply/andP; rewrite /E; split; lra.
- case=> /andP [c1 c2] tE; subst t'; move: h3.
  have g : a00 * s' + b0 = 0 by nra.
  suff -> : [&& 0 < - b0, - b0 < a00 & t <= 0] by [].
  have gt0 : 0 <= a01 * s' + b1 by nra.
  have b0E : b0 = - (a00 * s') by lra.
  have {}gt0 : 0 <= a00 * (a01 * s' + b1) by rewrite mulr_ge0 // ltW.
  by apply/and3P; rewrite /t; split; [nra | nra | rewrite b0E; lra].
- case=> /andP [c1 c2] tE; subst t'; move: h4.
  have g : a00 * s' + a01 * (1 - s') + b0 = a01 * s' + a11 * (1 - s') + b1 by nra.
  suff -> : [&& 0 < a00 + b0 - a01 - b1, a00 + b0 - a01 - b1 < E & D <= s + t] by [].
  set G := a00 * s' + a01 * (1 - s') + b0.
  have G0 : G <= 0.
    have <- : (a00 * s' + a01 * (1 - s') + b0) * s' + (a01 * s' + a11 * (1 - s') + b1) * (1 - s') = G.
      by rewrite -g -/G; fld.
    exact: k0.
  have b0E : b0 = G - a00 * s' - a01 * (1 - s') by rewrite /G; lra.
  have b1E : b1 = G - a01 * s' - a11 * (1 - s') by rewrite /G; lra.
  have e1' : 0 < E * (1 - s') by rewrite mulr_gt0 //; lra.
  have e2' : 0 < E * s' by rewrite mulr_gt0.
  have e3' : 0 <= E * - G by apply: mulr_ge0; [exact: ltW | lra].
  clearbody G; move: e1' e2' e3'; rewrite /s /t /D /E b0E b1E => e1' e2' e3'.
  by apply/and3P; split; lra.
- case=> /andP [c1 c2] tE; subst s'; move: h5.
  have g : a11 * t' + b1 = 0 by nra.
  suff -> : [&& 0 < a11 + b1, a11 + b1 < a11 & s <= 0] by [].
  have gt0 : 0 <= a01 * t' + b0 by nra.
  have b1E : b1 = - (a11 * t') by lra.
  have {}gt0 : 0 <= a11 * (a01 * t' + b0) by rewrite mulr_ge0 // ltW.
  by apply/and3P; rewrite /s; split; [nra | nra | rewrite b1E; lra].
- by case=> i1 i2 i3 g1 g2; split.
Qed.
End Tri.
End Pt.
