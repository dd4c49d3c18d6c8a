(* et_intersected, the mollifier, and the derivatives of the point-point
   distance. *)
From mathcomp Require Import all_ssreflect all_algebra.
From Coq Require Import Field.
From Verif Require Import FieldTac NraTac MatModel DistModel DistSpec DistProofs DistProofs2 DistProofs3 DistProofs5 DistProofs6 DistProofs7.
Set Implicit Arguments.
Unset Strict Implicit.
Unset Printing Implicit Defensive.
Import Order.TTheory GRing.Theory Num.Theory.
Local Open Scope ring_scope.

Section Et.
Variable T : realFieldType.
Let F : fieldType := [fieldType of T].
Add Field ffd : (cfield F).
Ltac fld := to_fld F; field.
Ltac nra := fnra_ T.
Ltac lra := flra_ T.
Notation vec := (nat -> T).
Notation sdot := (sdot 3).

Lemma coords (x y : vec) : (forall i, (i < 3)%N -> x i = y i) <-> dist2 3 x y = 0.
Proof.
split=> [h|]; first by apply: big1 => i _; rewrite h // subrr expr0n.
rewrite dist2E => z i /(sdot_eq0 z) /eqP; rewrite /vsub subr_eq0 => /eqP //.
Qed.

Section Pair.
Variables e0 e1 t0 t1 t2 : vec.
Let c0 := vsub t1 t0.
Let c1 := vsub t2 t0.
Let c2 := vsub e0 e1.
Let b := vsub e0 t0.
Let det := sdot c0 (cross3 c1 c2).

Lemma cramer i : (i < 3)%N -> det * b i =
  sdot b (cross3 c1 c2) * c0 i + sdot c0 (cross3 b c2) * c1 i + sdot c0 (cross3 c1 b) * c2 i.
Proof.
rewrite /det !sdot3 !crossE.
by case: i => [|[|[|//]]] _;
move: (c0 0%N) (c0 1%N) (c0 2%N) (c1 0%N) (c1 1%N) (c1 2%N) (c2 0%N) (c2 1%N) (c2 2%N) (b 0%N) (b 1%N) (b 2%N) => *; fld.
Qed.
Lemma meet_b (s u v : T) : dist2 3 (seg_at e0 e1 s) (tri_at t0 t1 t2 u v) = 0 ->
  forall i, (i < 3)%N -> b i = u * c0 i + v * c1 i + s * c2 i.
Proof.
move/coords => h i /h; rewrite /seg_at /tri_at /b /c0 /c1 /c2 /vsub => k.
have E : e0 i = (1 - s) * e0 i + s * e1 i + s * (e0 i - e1 i) by fld.
by rewrite {1}E k; fld.
Qed.

Lemma et_sound : et_intersected e0 e1 t0 t1 t2 ->
  exists x y, [/\ on_seg e0 e1 x, on_tri t0 t1 t2 y & dist2 3 x y = 0].
Proof.
rewrite /et_intersected !det_cols -/c0 -/c1 -/c2 -/b -/det; case: ifP => // _.
case: eqP => // /eqP dn.
set u := _ / det; set v := _ / det; set s := _ / det.
case/and5P => h1 h2 h3 h4 h5.
exists (seg_at e0 e1 s), (tri_at t0 t1 t2 u v); split; first by exists s; rewrite h4 h5.
  by exists u, v; split.
apply/coords => i /cramer; rewrite /seg_at /tri_at.
have -> : sdot b (cross3 c1 c2) = u * det by rewrite divfK.
have -> : sdot c0 (cross3 b c2) = v * det by rewrite divfK.
have -> : sdot c0 (cross3 c1 b) = s * det by rewrite divfK.
move=> k.
have {}k : b i = u * c0 i + v * c1 i + s * c2 i by apply: (mulfI dn); rewrite k; fld.
have -> : (1 - s) * e0 i + s * e1 i = t0 i + b i - s * c2 i by rewrite /b /c2 /vsub; fld.
by rewrite k /c0 /c1 /vsub; fld.
Qed.

Lemma et_complete x y : det != 0 -> on_seg e0 e1 x -> on_tri t0 t1 t2 y -> dist2 3 x y = 0 ->
  et_intersected e0 e1 t0 t1 t2.
Proof.
move=> dn [s [/andP [s0 s1] ->]] [u [v [u0 v0 uv ->]]] /meet_b B.
rewrite /et_intersected !det_cols !dotE -/c0 -/c1 -/c2 -/b -/det (negbTE dn).
have -> : sdot b (cross3 c1 c2) = u * det.
  by rewrite /det !sdot3 !crossE !B //; fld.
have -> : sdot c0 (cross3 b c2) = v * det.
  by rewrite /det !sdot3 !crossE !B //; fld.
have -> : sdot c0 (cross3 c1 b) = s * det.
  by rewrite /det !sdot3 !crossE !B //; fld.
rewrite !mulfK // u0 v0 uv s0 s1 /=.
have -> : sdot (cross3 c0 c1) b = s * det.
  by rewrite /det !sdot3 !crossE !B //; fld.
have -> : sdot (cross3 c0 c1) (vsub e1 t0) = (s - 1) * det.
  have -> : sdot (cross3 c0 c1) (vsub e1 t0) = sdot (cross3 c0 c1) b - sdot (cross3 c0 c1) c2.
    by rewrite !sdot3 /b /c2 /vsub; fld.
  by rewrite /det !sdot3 !crossE !B //; fld.
rewrite ltNge; suff -> : s * det * ((s - 1) * det) <= 0 by [].
have -> : s * det * ((s - 1) * det) = - (s * (1 - s) * (det * det)) by fld.
by rewrite oppr_le0; apply: mulr_ge0; [apply: mulr_ge0; lra | rewrite -expr2 sqr_ge0].
Qed.

Lemma det_n0 : proper_tri 3 t0 t1 t2 ->
  (forall s t, ~ (forall i, (i < 3)%N -> e1 i - e0 i = s * (t1 i - t0 i) + t * (t2 i - t0 i))) -> det != 0.
Proof.
case/proper_pos; rewrite -/c0 -/c1 => _ _ np _ no; apply/eqP => z.
pose m := cross3 c0 c1.
have mm : 0 < sdot m m by rewrite lagrange.
have mn : sdot m m != 0 by rewrite gt_eqF.
apply: (no (- sdot (cross3 c2 c1) m / sdot m m) (- sdot (cross3 c0 c2) m / sdot m m)) => i hi.
apply: (mulfI mn).
have E : sdot m m * c2 i = det * m i + sdot (cross3 c2 c1) m * c0 i + sdot (cross3 c0 c2) m * c1 i.
  rewrite /det /m !sdot3.
  by case: i hi => [|[|[|//]]] _; rewrite !crossE;
  move: (c0 0%N) (c0 1%N) (c0 2%N) (c1 0%N) (c1 1%N) (c1 2%N) (c2 0%N) (c2 1%N) (c2 2%N) => *; fld.
have -> : e1 i - e0 i = - c2 i by rewrite /c2 /vsub; fld.
rewrite mulrN E z mul0r add0r -/(vsub t1 t0 i) -/(vsub t2 t0 i) -/c0 -/c1.
by move/eqP in mn; fld.
Qed.
End Pair.

(* ---- the mollifier ---- *)
Lemma eem_taylor (eps x h : T) : eps != 0 ->
  EEM (x + h) eps = EEM x eps + h * g_EEM x eps + h * h / 2%:R * H_EEM x eps.
Proof.
move=> n; have n' : eps <> 0 by apply/eqP.
have t : (2%:R : T) <> 0 by apply/eqP; rewrite pnatr_eq0.
by rewrite /EEM /g_EEM /H_EEM; fld.
Qed.
Lemma eem_form (eps x : T) : eps != 0 -> EEM x eps = 1 - ((eps - x) / eps) ^+ 2.
Proof. by move=> /eqP n; rewrite /EEM expr2; fld. Qed.

(* ---- point-point ---- *)
Lemma grad_at n (a b : vec) d : (d < n)%N ->
  dist_grad_pp n a b 0 d = 2%:R * (a d - b d) /\ dist_grad_pp n a b 1 d = - (2%:R * (a d - b d)).
Proof.
rewrite /dist_grad_pp; elim: n => // n IH h; rewrite MatProofs2.loopS /mset /=.
by case: (eqVneq d n) => [->|ne] //; apply: IH; rewrite ltn_neqAle ne -ltnS.
Qed.
Lemma pp_expand n (a b ha hb : vec) : dist2_pp n (vadd a ha) (vadd b hb) =
  dist2_pp n a b + \sum_(d < n) (dist_grad_pp n a b 0 d * ha d + dist_grad_pp n a b 1 d * hb d) +
  \sum_(d < n) (ha d - hb d) ^+ 2.
Proof.
rewrite /dist2_pp !l2E -!big_split /=; apply: eq_bigr => d _.
have [-> ->] := @grad_at n a b d (ltn_ord d).
by rewrite /vsub /vadd expr2; fld.
Qed.
Lemma hess_23 n (h : vec) : n = 2%N \/ n = 3%N ->
  \sum_(i < n + n) \sum_(j < n + n) dist_hess_pp T n i j * h i * h j =
  2%:R * \sum_(d < n) (h d - h (n + d)%N) ^+ 2.
Proof.
by case=> ->; rewrite !big_ord_recl !big_ord0 /dist_hess_pp /mset /= /bump /= !addr0;
 move: (h 0%N) (h 1%N) (h 2%N) (h 3%N) (h 4%N) (h 5%N) => *; fld.
Qed.
End Et.
