(* Two segments: from the parameters to the points. *)
From mathcomp Require Import all_ssreflect all_algebra.
From Coq Require Import Field.
From Verif Require Import FieldTac NraTac MatModel DistModel DistSpec DistProofs2 DistProofs3 DistProofs4.
Set Implicit Arguments.
Unset Strict Implicit.
Unset Printing Implicit Defensive.
Import Order.TTheory GRing.Theory Num.Theory.
Local Open Scope ring_scope.

Section Segs.
Variable T : realFieldType.
Let F : fieldType := [fieldType of T].
Add Field ffd : (cfield F).
Ltac fld := to_fld F; field.
Ltac nra := fnra_ T.
Ltac lra := flra_ T.
Notation vec := (nat -> T).
Variable n : nat.
Notation sdot := (sdot n).

Section Pair.
Variables ea0 ea1 eb0 eb1 : vec.
Let u := vsub ea1 ea0.
Let v := vsub eb1 eb0.
Let w := vsub ea0 eb0.
Let a := sdot u u.
Let b := sdot u v.
Let c := sdot v v.
Let d := sdot u w.
Let e := sdot v w.

Lemma seg_quad (s t : T) :
  dist2 n (seg_at ea0 ea1 s) (seg_at eb0 eb1 t) =
  a * s * s - 2%:R * b * s * t + c * t * t + 2%:R * d * s - 2%:R * e * t + sdot w w.
Proof.
rewrite dist2E.
have -> : sdot (vsub (seg_at ea0 ea1 s) (seg_at eb0 eb1 t)) (vsub (seg_at ea0 ea1 s) (seg_at eb0 eb1 t))
  = sdot (lin2 1 w 1 (lin2 s u (- t) v)) (lin2 1 w 1 (lin2 s u (- t) v)).
  apply: eq_bigr => i _; rewrite /lin2 /u /v /w /vsub /seg_at; by fld.
rewrite sdot_lin sdot_lin (sdotC n w (lin2 _ _ _ _)) !sdot_lin_l (sdotC n v u) -/a -/b -/c -/d -/e.
by fld.
Qed.
Lemma hit_seg (s t : T) :
  l2NormSqr n (vsub (vadd w (vscale s u)) (vscale t v)) = dist2 n (seg_at ea0 ea1 s) (seg_at eb0 eb1 t).
Proof.
rewrite l2E dist2E; apply: sdot_ext => i; rewrite /u /v /w /vsub /vadd /vscale /seg_at; by fld.
Qed.

Lemma seg_a0 : 0 <= a. Proof. exact: sdot_ge0. Qed.
Lemma seg_c0 : 0 <= c. Proof. exact: sdot_ge0. Qed.
Lemma seg_D0 : 0 <= a * c - b * b. Proof. exact: cs. Qed.
Lemma seg_ce : c = 0 -> e = 0.
Proof. by move=> z; apply: big1 => i _; rewrite (sdot_eq0 z) ?mul0r. Qed.
Lemma seg_ad : a = 0 -> d = 0.
Proof. by move=> z; apply: big1 => i _; rewrite (sdot_eq0 z) ?mul0r. Qed.
Lemma seg_par : a * c - b * b = 0 -> b * e = c * d /\ a * e = b * d.
Proof.
move=> z.
have q1 : sdot (lin2 (- b) u a v) (lin2 (- b) u a v) = 0.
  rewrite sdot_lin (sdotC n v u) -/a -/b -/c.
  have -> : - b * - b * a + - b * a * b + a * - b * b + a * a * c = a * (a * c - b * b) by fld.
  by rewrite z mulr0.
have q2 : sdot (lin2 (- c) u b v) (lin2 (- c) u b v) = 0.
  rewrite sdot_lin (sdotC n v u) -/a -/b -/c.
  have -> : - c * - c * a + - c * b * b + b * - c * b + b * b * c = c * (a * c - b * b) by fld.
  by rewrite z mulr0.
have z1 : sdot (lin2 (- b) u a v) w = 0 by apply: big1 => i _; rewrite (sdot_eq0 q1) ?mul0r.
have z2 : sdot (lin2 (- c) u b v) w = 0 by apply: big1 => i _; rewrite (sdot_eq0 q2) ?mul0r.
by move: z1 z2; rewrite !sdot_lin_l -/d -/e => z1 z2; split; lra.
Qed.

Lemma bkkt_min (s t : T) : bkkt a b c d e s t ->
  forall s' t', in01 s' -> in01 t' ->
  dist2 n (seg_at ea0 ea1 s) (seg_at eb0 eb1 t) <= dist2 n (seg_at ea0 ea1 s') (seg_at eb0 eb1 t').
Proof.
move=> [k1 k2 k3 k4] s' t' [hs hs'] [ht ht']; rewrite !seg_quad.
have := sdot_ge0 n (lin2 (s' - s) u (- (t' - t)) v); rewrite sdot_lin (sdotC n v u) -/a -/b -/c => q.
move: k1 k2 k3 k4; set gs := a * s - b * t + d; set gt := c * t - b * s - e => k1 k2 k3 k4.
have g1 : 0 <= gs * (s' - s).
  have -> : gs * (s' - s) = (gs * (1 - s)) * s' + (- (gs * s)) * (1 - s') by fld.
  by rewrite addr_ge0 // mulr_ge0 //; lra.
have g2 : 0 <= gt * (t' - t).
  have -> : gt * (t' - t) = (gt * (1 - t)) * t' + (- (gt * t)) * (1 - t') by fld.
  by rewrite addr_ge0 // mulr_ge0 //; lra.
move: q g1 g2; rewrite /gs /gt; lra.
Qed.
Lemma on_seg01 (x y z : vec) : on_seg x y z <-> exists s, in01 s /\ z = seg_at x y s.
Proof.
split=> -[s [h ->]]; exists s; split=> //; first by case/andP: h.
by case: h => -> ->.
Qed.
Lemma least_of (s t : T) : in01 s -> in01 t -> bkkt a b c d e s t ->
  least_dist2 n (on_seg ea0 ea1) (on_seg eb0 eb1) (dist2 n (seg_at ea0 ea1 s) (seg_at eb0 eb1 t)).
Proof.
move=> i j k; split.
  by exists (seg_at ea0 ea1 s), (seg_at eb0 eb1 t); split=> //; apply/on_seg01; [exists s|exists t].
by move=> x y /on_seg01 [s' [h ->]] /on_seg01 [t' [h' ->]]; apply: bkkt_min.
Qed.
Lemma line_a (s t : T) : a * s - b * t + d = 0 ->
  forall s', dist2 n (seg_at ea0 ea1 s) (seg_at eb0 eb1 t) <= dist2 n (seg_at ea0 ea1 s') (seg_at eb0 eb1 t).
Proof.
move=> g s'; rewrite !seg_quad; have := seg_a0; move: g; move: (sdot w w) => ww g h.
have : 0 = (a * s - b * t + d) * (s' - s) by rewrite g mul0r.
have : 0 <= a * ((s' - s) * (s' - s)) by rewrite mulr_ge0 // -expr2 sqr_ge0.
lra.
Qed.
Lemma line_b (s t : T) : c * t - b * s - e = 0 ->
  forall t', dist2 n (seg_at ea0 ea1 s) (seg_at eb0 eb1 t) <= dist2 n (seg_at ea0 ea1 s) (seg_at eb0 eb1 t').
Proof.
move=> g t'; rewrite !seg_quad; have := seg_c0; move: g; move: (sdot w w) => ww g h.
have : 0 = (c * t - b * s - e) * (t' - t) by rewrite g mul0r.
have : 0 <= c * ((t' - t) * (t' - t)) by rewrite mulr_ge0 // -expr2 sqr_ge0.
lra.
Qed.

Lemma proper_c : proper_seg n eb0 eb1 -> 0 < c.
Proof.
move=> [i il ne]; rewrite lt_neqAle seg_c0 andbT; apply/eqP => z.
by apply: ne; have := sdot_eq0 (esym z) il; rewrite /v /vsub => /eqP; rewrite subr_eq0 => /eqP.
Qed.

Lemma dist2C (x y : vec) : dist2 n x y = dist2 n y x.
Proof. by apply: eq_bigr => i _; rewrite -sqrrN opprB. Qed.

Lemma dist_ee_least (eps : T) : 0 < eps -> eps <= 1 -> all_clear eps a b c d e -> proper_seg n eb0 eb1 ->
  exists2 r, dist_ee_sqr eps n ea0 ea1 eb0 eb1 = Some r & least_dist2 n (on_seg ea0 ea1) (on_seg eb0 eb1) r.
Proof.
move=> e0 e1 cl /proper_c cp.
have [s [t [E i j k]]] := ee_st_ok e0 e1 seg_a0 seg_c0 seg_D0 seg_par cl cp.
exists (dist2 n (seg_at ea0 ea1 s) (seg_at eb0 eb1 t)); last exact: least_of.
by rewrite /dist_ee_sqr !dotE E /= hit_seg.
Qed.
Lemma dist_ee_attained (eps : T) : 0 < eps -> eps <= 1 ->
  exists r x y, [/\ dist_ee_sqr eps n ea0 ea1 eb0 eb1 = Some r, on_seg ea0 ea1 x, on_seg eb0 eb1 y & r = dist2 n x y].
Proof.
move=> e0 e1.
have [s [t [E i j]]] := ee_st_in d e e0 e1 seg_a0 seg_c0 seg_D0.
exists (dist2 n (seg_at ea0 ea1 s) (seg_at eb0 eb1 t)), (seg_at ea0 ea1 s), (seg_at eb0 eb1 t); split=> //.
- by rewrite /dist_ee_sqr !dotE E /= hit_seg.
- by apply/on_seg01; exists s.
- by apply/on_seg01; exists t.
Qed.
Lemma ee_category_least (eps : T) : 0 < eps -> eps <= 1 -> all_clear eps a b c d e ->
  exists ku kv r, [/\ ee_category_and_dist2 eps n ea0 ea1 eb0 eb1 = Some ((ku * 3 + kv)%N, r),
    least_dist2 n (on_seg ea0 ea1) (on_seg eb0 eb1) r &
    exists x y, [/\ seg_feature n y ea0 ea1 ku x, seg_feature n x eb0 eb1 kv y & r = dist2 n x y]].
Proof.
move=> e0 e1 cl.
have [k [l [s [t [E i j kk [h1 h2]]]]]] := ee_category_ok e0 e1 seg_a0 seg_c0 seg_D0 seg_par seg_ce cl.
exists k, l, (dist2 n (seg_at ea0 ea1 s) (seg_at eb0 eb1 t)); split.
- by rewrite /ee_category_and_dist2 !dotE E /= hit_seg.
- exact: least_of.
- exists (seg_at ea0 ea1 s), (seg_at eb0 eb1 t); split=> //.
    case: k h1 {E} => [->//|[->//|[g|//]]].
    by split; [apply/on_seg01; exists s | apply: line_a].
  case: l h2 {E} => [->//|[->//|[g|//]]].
  split; first by apply/on_seg01; exists t.
  by move=> t'; rewrite [X in X <= _]dist2C [X in _ <= X]dist2C; apply: line_b.
Qed.
End Pair.

(* integer coordinates *)
Definition integral (x : T) : Prop := exists z : int, x = z%:~R.
Lemma int_add x y : integral x -> integral y -> integral (x + y).
Proof. by move=> [z ->] [z' ->]; exists (z + z'); rewrite intrD. Qed.
Lemma int_opp x : integral x -> integral (- x).
Proof. by move=> [z ->]; exists (- z); rewrite mulrNz. Qed.
Lemma int_sub x y : integral x -> integral y -> integral (x - y).
Proof. by move=> h k; apply: int_add => //; apply: int_opp. Qed.
Lemma int_mul x y : integral x -> integral y -> integral (x * y).
Proof. by move=> [z ->] [z' ->]; exists (z * z'); rewrite intrM. Qed.
Lemma int_sdot (x y : vec) : (forall i, integral (x i)) -> (forall i, integral (y i)) -> integral (sdot x y).
Proof.
move=> h k; apply: (@big_ind _ integral); first by exists 0.
- exact: int_add.
- by move=> i _; apply: int_mul.
Qed.
Lemma int_clear (eps x : T) : eps <= 1 -> integral x -> clear eps x.
Proof.
move=> e1 [z ->]; case: (altP (z =P 0)) => [->|nz]; [by left|right].
apply: le_trans e1 _.
by rewrite -intr_norm -[1]/(1%:~R) ler_int -gtz0_ge1 normr_gt0.
Qed.
Lemma int_all_clear (eps : T) (x y z : vec) : eps <= 1 ->
  (forall i, integral (x i)) -> (forall i, integral (y i)) -> (forall i, integral (z i)) ->
  all_clear eps (sdot x x) (sdot x y) (sdot y y) (sdot x z) (sdot y z).
Proof.
move=> e1 hx hy hz.
have I := int_sdot.
by split; [| | | split]; apply: int_clear => //; repeat (apply: int_sub || apply: int_add || apply: int_mul || apply: I).
Qed.
End Segs.
