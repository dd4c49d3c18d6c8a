(* dist_pt_sqr and pt_category_and_dist2. *)
From mathcomp Require Import all_ssreflect all_algebra.
From Coq Require Import Field.
From Verif Require Import FieldTac NraTac MatModel DistModel DistSpec DistProofs.
From Verif Require MatProofs.
Set Implicit Arguments.
Unset Strict Implicit.
Unset Printing Implicit Defensive.
Import Order.TTheory GRing.Theory Num.Theory.
Local Open Scope ring_scope.

Section Sums.
Variable T : realFieldType.
Let F : fieldType := [fieldType of T].
Add Field ffd : (cfield F).
Ltac fld := to_fld F; field.
Ltac nra := fnra_ T.
Ltac lra := flra_ T.
Notation vec := (nat -> T).
Variable n : nat.

Definition sdot (a b : vec) : T := \sum_(i < n) a i * b i.
Lemma dotE (a b : vec) : dot n a b = sdot a b.
Proof. by rewrite /dot MatProofs.loop_sum add0r. Qed.
Lemma l2E (a : vec) : l2NormSqr n a = sdot a a.
Proof. by rewrite /l2NormSqr MatProofs.loop_sum add0r. Qed.
Lemma dist2E (x y : vec) : dist2 n x y = sdot (vsub x y) (vsub x y).
Proof. by apply: eq_bigr => i _; rewrite expr2. Qed.
Lemma sdotC (a b : vec) : sdot a b = sdot b a.
Proof. by apply: eq_bigr => i _; rewrite mulrC. Qed.
Lemma sdot_ge0 (a : vec) : 0 <= sdot a a.
Proof. by apply: sumr_ge0 => i _; rewrite -expr2 sqr_ge0. Qed.
Lemma sdot_eq0 (a : vec) : sdot a a = 0 -> forall i, (i < n)%N -> a i = 0.
Proof.
move=> h i il.
have pos (j : 'I_n) : predT j -> 0 <= a j * a j by rewrite -expr2 sqr_ge0.
have := psumr_eq0P pos h.
by move/(_ (Ordinal il) isT)/eqP; rewrite /= mulf_eq0 orbb => /eqP.
Qed.
(* x a + y b *)
Definition lin2 (x : T) (a : vec) (y : T) (b : vec) : vec := fun i => x * a i + y * b i.
Lemma sdot_lin (x y z w : T) (a b c d : vec) :
  sdot (lin2 x a y b) (lin2 z c w d)
  = x * z * sdot a c + x * w * sdot a d + y * z * sdot b c + y * w * sdot b d.
Proof. rewrite /sdot !mulr_sumr -!big_split /=; apply: eq_bigr => i _; rewrite /lin2; by fld. Qed.
Lemma sdot_lin_l (x y : T) (a b c : vec) : sdot (lin2 x a y b) c = x * sdot a c + y * sdot b c.
Proof. rewrite /sdot !mulr_sumr -!big_split /=; apply: eq_bigr => i _; rewrite /lin2; by fld. Qed.
Lemma sdot_ext (a b c d : vec) : (forall i, a i = c i) -> (forall i, b i = d i) -> sdot a b = sdot c d.
Proof. by move=> h k; apply: eq_bigr => i _; rewrite h k. Qed.

(* Cauchy-Schwarz *)
Lemma cs (a b : vec) : 0 <= sdot a a * sdot b b - sdot a b * sdot a b.
Proof.
have := sdot_ge0 (lin2 (- sdot a b) a (sdot a a) b).
rewrite sdot_lin (sdotC b a) => h.
case: (ltrP 0 (sdot a a)) => c.
  rewrite -(pmulr_rge0 _ c); lra.
have z : sdot a a = 0 by apply/eqP; rewrite eq_le c sdot_ge0.
have -> : sdot a b = 0.
  by apply: big1 => i _; rewrite (sdot_eq0 z) ?mul0r.
by rewrite z !mul0r subrr.
Qed.

(* the squared distance of p and the point at s and t of the triangle *)
Lemma tri_quad (p t0 t1 t2 : vec) (s t : T) :
  let e0 := vsub t1 t0 in let e1 := vsub t2 t0 in let d := vsub t0 p in
  dist2 n p (tri_at t0 t1 t2 s t) =
  sdot e0 e0 * s * s + 2%:R * sdot e0 e1 * s * t + sdot e1 e1 * t * t
  + 2%:R * sdot d e0 * s + 2%:R * sdot d e1 * t + sdot d d.
Proof.
move=> e0 e1 d; rewrite dist2E.
have -> : sdot (vsub p (tri_at t0 t1 t2 s t)) (vsub p (tri_at t0 t1 t2 s t))
  = sdot (lin2 1 d 1 (lin2 s e0 t e1)) (lin2 1 d 1 (lin2 s e0 t e1)).
  apply: eq_bigr => i _; rewrite /lin2 /e0 /e1 /d /vsub /tri_at; by fld.
rewrite sdot_lin sdot_lin (sdotC d (lin2 _ _ _ _)) !sdot_lin_l (sdotC e1 e0) (sdotC e0 d) (sdotC e1 d).
by fld.
Qed.

(* the code computes the squared distance at its s and t *)
Lemma hit_quad (p t0 t1 t2 : vec) (s t : T) :
  l2NormSqr n (vsub p (vadd (vadd t0 (vscale s (vsub t1 t0))) (vscale t (vsub t2 t0))))
  = dist2 n p (tri_at t0 t1 t2 s t).
Proof.
rewrite l2E dist2E; apply: sdot_ext => i; rewrite /vsub /vadd /vscale /tri_at; by fld.
Qed.

(* optimality *)
Lemma kkt_min (p t0 t1 t2 : vec) (s t : T) :
  let e0 := vsub t1 t0 in let e1 := vsub t2 t0 in let d := vsub t0 p in
  kkt (sdot e0 e0) (sdot e0 e1) (sdot e1 e1) (sdot d e0) (sdot d e1) s t ->
  forall s' t', 0 <= s' -> 0 <= t' -> s' + t' <= 1 ->
  dist2 n p (tri_at t0 t1 t2 s t) <= dist2 n p (tri_at t0 t1 t2 s' t').
Proof.
move=> e0 e1 d [k0 k1 k2] s' t' hs ht hst; rewrite !tri_quad -/e0 -/e1 -/d.
have := sdot_ge0 (lin2 (s' - s) e0 (t' - t) e1); rewrite sdot_lin (sdotC e1 e0).
move: k0 k1 k2; move: (sdot e0 e0) (sdot e0 e1) (sdot e1 e1) (sdot d e0) (sdot d e1) => a00 a01 a11 b0 b1.
set gs := a00 * s + a01 * t + b0; set gt := a01 * s + a11 * t + b1; set m := gs * s + gt * t => k0 k1 k2 q.
have h : 0 <= (gs - m) * s' + (gt - m) * t' + (0 - m) * (1 - s' - t').
  have hc : 0 <= 1 - s' - t' by lra.
  by rewrite !addr_ge0 // mulr_ge0 // subr_ge0.
move: h q; rewrite /m /gs /gt; lra.
Qed.

(* triangles *)
Lemma proper_pos (t0 t1 t2 : vec) : proper_tri n t0 t1 t2 ->
  let e0 := vsub t1 t0 in let e1 := vsub t2 t0 in
  [/\ 0 < sdot e0 e0, 0 < sdot e1 e1, 0 < sdot e0 e0 * sdot e1 e1 - sdot e0 e1 * sdot e0 e1
    & 0 < sdot e0 e0 - (sdot e0 e1 + sdot e0 e1) + sdot e1 e1].
Proof.
move=> pr e0 e1.
have pos s t : 0 < sdot (lin2 s e0 t e1) (lin2 s e0 t e1) \/ (s = 0 /\ t = 0).
  case: (ltrP 0 (sdot (lin2 s e0 t e1) (lin2 s e0 t e1))) => c; [by left|right].
  have z : sdot (lin2 s e0 t e1) (lin2 s e0 t e1) = 0 by apply/eqP; rewrite eq_le c sdot_ge0.
  by apply: pr => i il; exact: (sdot_eq0 z il).
have p00 : 0 < sdot e0 e0.
  case: (pos 1 0) => [|[/eqP]]; last by rewrite oner_eq0.
  by rewrite sdot_lin !(mul0r, mulr0, mul1r, addr0).
have p11 : 0 < sdot e1 e1.
  case: (pos 0 1) => [|[_ /eqP]]; last by rewrite oner_eq0.
  by rewrite sdot_lin !(mul0r, mulr0, mul1r, add0r).
split=> //.
  case: (pos (- sdot e0 e1) (sdot e0 e0)) => [|[_ z]]; last by rewrite z ltxx in p00.
  rewrite sdot_lin (sdotC e1 e0) => h.
  rewrite -(pmulr_rgt0 _ p00); lra.
case: (pos 1 (-1)) => [|[/eqP]]; last by rewrite oner_eq0.
by rewrite sdot_lin (sdotC e1 e0) => h; lra.
Qed.
Lemma pos_proper (t0 t1 t2 : vec) :
  let e0 := vsub t1 t0 in let e1 := vsub t2 t0 in
  0 < sdot e0 e0 * sdot e1 e1 - sdot e0 e1 * sdot e0 e1 -> proper_tri n t0 t1 t2.
Proof.
move=> e0 e1 pd s t h.
have z (a : vec) : s * sdot e0 a + t * sdot e1 a = 0.
  by rewrite -sdot_lin_l; apply: big1 => i _; rewrite /lin2 h ?mul0r.
move: (z e0) (z e1); rewrite (sdotC e1 e0) => z0 z1.
split; apply: (mulIf (negbT (gt_eqF pd))); rewrite mul0r.
  have -> : s * (sdot e0 e0 * sdot e1 e1 - sdot e0 e1 * sdot e0 e1)
    = sdot e1 e1 * (s * sdot e0 e0 + t * sdot e0 e1) - sdot e0 e1 * (s * sdot e0 e1 + t * sdot e1 e1) by fld.
  by rewrite z0 z1 !mulr0 subrr.
have -> : t * (sdot e0 e0 * sdot e1 e1 - sdot e0 e1 * sdot e0 e1)
  = sdot e0 e0 * (s * sdot e0 e1 + t * sdot e1 e1) - sdot e0 e1 * (s * sdot e0 e0 + t * sdot e0 e1) by fld.
by rewrite z0 z1 !mulr0 subrr.
Qed.

(* a zero of the gradient is the closest point of the plane *)
Lemma stationary_min (p t0 t1 t2 : vec) (s t : T) :
  let e0 := vsub t1 t0 in let e1 := vsub t2 t0 in let d := vsub t0 p in
  sdot e0 e0 * s + sdot e0 e1 * t + sdot d e0 = 0 -> sdot e0 e1 * s + sdot e1 e1 * t + sdot d e1 = 0 ->
  forall s' t', dist2 n p (tri_at t0 t1 t2 s t) <= dist2 n p (tri_at t0 t1 t2 s' t').
Proof.
move=> e0 e1 d g1 g2 s' t'; rewrite !tri_quad -/e0 -/e1 -/d.
have := sdot_ge0 (lin2 (s' - s) e0 (t' - t) e1); rewrite sdot_lin (sdotC e1 e0).
move: g1 g2; move: (sdot e0 e0) (sdot e0 e1) (sdot e1 e1) (sdot d e0) (sdot d e1) => a00 a01 a11 b0 b1 g1 g2 q.
have : 0 = (a00 * s + a01 * t + b0) * (s' - s) + (a01 * s + a11 * t + b1) * (t' - t).
  by rewrite g1 g2 !mul0r addr0.
move: q; lra.
Qed.

Lemma st_feature_ok (p a b c : vec) (f : nat) (s t : T) :
  let e0 := vsub b a in let e1 := vsub c a in let d := vsub a p in
  st_feature (sdot e0 e0) (sdot e0 e1) (sdot e1 e1) (sdot d e0) (sdot d e1) f s t ->
  tri_feature n p a b c f (tri_at a b c s t) /\ [/\ 0 <= s, 0 <= t & s + t <= 1].
Proof.
case: f => [|[|[|[|[|[|[|//]]]]]]] /=.
- by case=> -> ->; rewrite add0r ler01 lexx.
- by case=> -> ->; rewrite addr0 ler01 lexx.
- by case=> -> ->; rewrite add0r ler01 lexx.
- case=> /andP [h1 h2] ->; split; first by exists s; rewrite h1.
  by split; lra.
- case=> /andP [h1 h2] ->; split; first by exists s; rewrite h1.
  by split; lra.
- case=> /andP [h1 h2] ->; split; first by exists t; rewrite h1.
  by split; lra.
- case=> h1 h2 h3 g1 g2; split=> //; split; first by exists s, t.
  exact: stationary_min.
Qed.

Lemma pt_category_ok (p t0 t1 t2 : vec) : proper_tri n t0 t1 t2 ->
  exists c r, [/\ pt_category_and_dist2 n p t0 t1 t2 = Some (c, r),
    least_dist2 n (eq p) (on_tri t0 t1 t2) r
    & exists x, tri_feature n p t0 t1 t2 c x /\ r = dist2 n p x].
Proof.
move=> /proper_pos /= [p00 p11 pd pe].
have [c [s [t [E f k]]]] := pt_category_kkt (sdot (vsub t0 p) (vsub t1 t0)) (sdot (vsub t0 p) (vsub t2 t0)) p00 p11 pd pe.
exists c, (dist2 n p (tri_at t0 t1 t2 s t)).
have [h1 [h2 h3 h4]] := st_feature_ok f.
split.
- by rewrite /pt_category_and_dist2 !dotE E /= hit_quad.
- split; first by exists p, (tri_at t0 t1 t2 s t); split=> //; exists s, t.
  by move=> x y <- [s' [t' [g1 g2 g3 ->]]]; apply: kkt_min.
- by exists (tri_at t0 t1 t2 s t).
Qed.

Lemma pt_st_category (a00 a01 a11 b0 b1 : T) :
  pt_st a00 a01 a11 b0 b1 = omap (fun r => (r.1.2, r.2)) (pt_category a00 a01 a11 b0 b1).
Proof.
rewrite /pt_st /pt_category /quo.
by repeat (case: ifP => ? //).
Qed.
Lemma dist_pt_sqr_category (p t0 t1 t2 : vec) :
  dist_pt_sqr n p t0 t1 t2 = omap snd (pt_category_and_dist2 n p t0 t1 t2).
Proof.
rewrite /dist_pt_sqr /pt_category_and_dist2 pt_st_category.
by case: (pt_category _ _ _ _ _) => [[[c s] t]|].
Qed.

(* a degenerate triangle *)
Lemma pt_degenerate (p t0 t1 t2 : vec) : ~ proper_tri n t0 t1 t2 ->
  pt_category_and_dist2 n p t0 t1 t2 = None.
Proof.
move=> np; rewrite /pt_category_and_dist2 !dotE.
set e0 := vsub t1 t0; set e1 := vsub t2 t0; set d := vsub t0 p.
have z : sdot e0 e0 * sdot e1 e1 - sdot e0 e1 * sdot e0 e1 = 0.
  apply/eqP; rewrite eq_le cs andbT leNgt; apply/negP => h; exact: np (pos_proper h).
suff [s0 t0'] : sdot e0 e1 * sdot d e1 - sdot e1 e1 * sdot d e0 = 0 /\
                sdot e0 e1 * sdot d e0 - sdot e0 e0 * sdot d e1 = 0.
  by rewrite /pt_category s0 t0' z /zmax !ltxx add0r lexx /quo eqxx.
have q1 : sdot (lin2 (- sdot e0 e1) e0 (sdot e0 e0) e1) (lin2 (- sdot e0 e1) e0 (sdot e0 e0) e1) = 0.
  rewrite sdot_lin (sdotC e1 e0).
  have -> : forall x y z : T, (- x) * (- x) * y + - x * y * x + y * - x * x + y * y * z = y * (y * z - x * x) by move=> x y w; fld.
  by rewrite z mulr0.
have q2 : sdot (lin2 (- sdot e1 e1) e0 (sdot e0 e1) e1) (lin2 (- sdot e1 e1) e0 (sdot e0 e1) e1) = 0.
  rewrite sdot_lin (sdotC e1 e0).
  have -> : forall x y z : T, (- x) * (- x) * y + - x * z * z + z * - x * z + z * z * x = x * (y * x - z * z) by move=> x y w; fld.
  by rewrite z mulr0.
split.
  have : sdot (lin2 (- sdot e1 e1) e0 (sdot e0 e1) e1) d = 0.
    by apply: big1 => i _; rewrite (sdot_eq0 q2) ?mul0r.
  rewrite sdot_lin_l (sdotC e0 d) (sdotC e1 d) => h; lra.
have : sdot (lin2 (- sdot e0 e1) e0 (sdot e0 e0) e1) d = 0.
  by apply: big1 => i _; rewrite (sdot_eq0 q1) ?mul0r.
rewrite sdot_lin_l (sdotC e0 d) (sdotC e1 d) => h; lra.
Qed.
End Sums.
