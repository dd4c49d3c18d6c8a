(* Signed distances: geometry over an ordered field. *)
From mathcomp Require Import all_ssreflect all_algebra.
From Coq Require Import Field.
From Verif Require Import FieldTac NraTac MatModel DistModel DistSpec AlsSpec DistProofs2.
From Verif Require MatProofs.
Set Implicit Arguments.
Unset Strict Implicit.
Unset Printing Implicit Defensive.
Import Order.TTheory GRing.Theory Num.Theory.
Local Open Scope ring_scope.

Section Geo.
Variable T : realFieldType.
Let F : fieldType := [fieldType of T].
Add Field ffd : (cfield F).
Ltac fld := to_fld F; field.
Ltac nra := fnra_ T.
Ltac lra := flra_ T.
Notation vec := (nat -> T).

Lemma least_pt n (x : vec) (B : vec -> Prop) r :
  (exists2 y, B y & r = dist2 n x y) -> (forall y, B y -> r <= dist2 n x y) -> least_dist2 n (eq x) B r.
Proof.
move=> [y by' e] h; split; first by exists x, y.
by move=> x' y' <-; apply: h.
Qed.
Lemma dist2_ge0 n (x y : vec) : 0 <= dist2 n x y.
Proof. by apply: sumr_ge0 => i _; rewrite sqr_ge0. Qed.
Lemma dist2_coord n (x y : vec) i : (i < n)%N -> (x i - y i) ^+ 2 <= dist2 n x y.
Proof.
move=> il; rewrite /dist2 (bigD1 (Ordinal il)) //= ler_addl.
by apply: sumr_ge0 => j _; rewrite sqr_ge0.
Qed.
Lemma sqr_le (a b : T) : 0 <= b -> a ^+ 2 <= b ^+ 2 -> - b <= a <= b.
Proof. rewrite !expr2 => h k; apply/andP; split; nra. Qed.
Lemma le_sqr (a b : T) : - b <= a <= b -> a ^+ 2 <= b ^+ 2.
Proof. case/andP=> h k; rewrite !expr2; nra. Qed.

Lemma le_sqr2 (a b : T) : 0 <= a -> a <= b \/ a <= - b -> a ^+ 2 <= b ^+ 2.
Proof. move=> h [] k; rewrite !expr2; nra. Qed.

(* ---- planes ---- *)
Section Plane.
Variables (n : nat) (o m : vec).
Hypothesis unit : inner n m m = 1.
Lemma inner_sub (x y : vec) :
  inner n m (fun i => x i - o i) - inner n m (fun i => y i - o i) = sdot n m (vsub x y).
Proof. rewrite /inner /sdot -sumrB; apply: eq_bigr => i _; rewrite /vsub; by fld. Qed.
Lemma plane_lower (x y : vec) :
  (inner n m (fun i => x i - o i) - inner n m (fun i => y i - o i)) ^+ 2 <= dist2 n x y.
Proof.
rewrite inner_sub dist2E expr2.
have := cs n m (vsub x y); have -> : sdot n m m = 1 by [].
by rewrite mul1r subr_ge0.
Qed.
Lemma plane_foot (x : vec) : let r := inner n m (fun i => x i - o i) in
  let y : vec := fun i => x i - r * m i in
  on_plane n o m y /\ r ^+ 2 = dist2 n x y.
Proof.
move=> r y.
have e : sdot n m (vsub x y) = r * inner n m m.
  rewrite /inner /sdot mulr_sumr; apply: eq_bigr => i _; rewrite /vsub /y; by fld.
split.
  have := inner_sub x y; rewrite e unit mulr1 -/r /on_plane => h; lra.
have -> : dist2 n x y = r ^+ 2 * inner n m m.
  rewrite /inner mulr_sumr; apply: eq_bigr => i _; rewrite /y expr2; by fld.
by rewrite unit mulr1.
Qed.
Lemma plane_ok (x : vec) :
  signed_distance n (in_half n o m) (on_plane n o m) x (inner n m (fun i => x i - o i)).
Proof.
have [f1 f2] := plane_foot x.
split=> h.
- split=> //; apply: least_pt.
    by eexists; [exact: f1|exact: f2].
  by move=> y py; have := plane_lower x y; rewrite py subr0.
- have p : 0 < inner n m (fun i => x i - o i) by rewrite ltNge; apply/negP.
  split=> //; apply: least_pt.
    by eexists; last (exact: f2); rewrite /in_half f1.
  move=> y py; apply: le_trans (plane_lower x y); apply: le_sqr.
  rewrite /in_half in py; apply/andP; split; lra.
Qed.
End Plane.

(* ---- spheres ---- *)
Lemma sphere_lower n (c x y : vec) (D E : T) : 0 <= D -> 0 <= E ->
  dist2 n x c = D ^+ 2 -> dist2 n y c = E ^+ 2 -> (D - E) ^+ 2 <= dist2 n x y.
Proof.
move=> d0 e0 hd he.
have -> : dist2 n x y = D ^+ 2 + E ^+ 2 - 2%:R * sdot n (vsub x c) (vsub y c).
  rewrite -hd -he /dist2 /sdot mulr_sumr -big_split -sumrB; apply: eq_bigr => i _.
  rewrite /vsub /= !expr2; by fld.
have := cs n (vsub x c) (vsub y c); rewrite -!dist2E hd he.
move: (sdot n (vsub x c) (vsub y c)) => p h.
have k : p <= D * E.
  rewrite leNgt; apply/negP => k.
  have : 0 <= D * E by apply: mulr_ge0.
  rewrite !expr2 in h; move: h k; move=> h k q.
  have : (D * E) * (D * E) < p * p by nra.
  lra.
rewrite !expr2; lra.
Qed.
Lemma sphere_foot n (c x : vec) (D R : T) : (0 < n)%N -> 0 <= R -> 0 <= D -> dist2 n x c = D ^+ 2 ->
  exists2 y, on_sphere n c R y & (D - R) ^+ 2 = dist2 n x y.
Proof.
move=> n0 r0 d0 hd; case: (eqVneq D 0) => dz.
  have e i : (i < n)%N -> x i = c i.
    move=> il; have := dist2_coord x c il; rewrite hd dz expr0n /= => h.
    have : (x i - c i) ^+ 2 = 0 by apply/eqP; rewrite eq_le h sqr_ge0.
    by move/eqP; rewrite sqrf_eq0 subr_eq0 => /eqP.
  exists (fun i => if i == 0%N then c i + R else c i).
    rewrite /on_sphere /dist2 (bigD1 (Ordinal n0)) //= big1 ?addr0; first by rewrite addrC addKr.
    move=> i ne; have -> : (i == 0%N :> nat) = false by apply: contraNF ne => /eqP h; apply/eqP/val_inj.
    by rewrite subrr expr0n.
  rewrite dz /dist2 (bigD1 (Ordinal n0)) //= big1 ?addr0.
    by rewrite (e 0%N n0) !expr2; fld.
  move=> i ne; have -> : (i == 0%N :> nat) = false by apply: contraNF ne => /eqP h; apply/eqP/val_inj.
  by rewrite e // subrr expr0n.
have dn : (D : T) <> 0 by apply/eqP.
exists (fun i => c i + R / D * (x i - c i)).
  rewrite /on_sphere.
  have -> : dist2 n (fun i => c i + R / D * (x i - c i)) c = (R / D) ^+ 2 * dist2 n x c.
    rewrite /dist2 mulr_sumr; apply: eq_bigr => i _; rewrite !expr2; by fld.
  by rewrite hd !expr2; fld.
have -> : dist2 n x (fun i => c i + R / D * (x i - c i)) = (1 - R / D) ^+ 2 * dist2 n x c.
  rewrite /dist2 mulr_sumr; apply: eq_bigr => i _; rewrite !expr2; by fld.
by rewrite hd !expr2; fld.
Qed.
Lemma in_ballP n (c x : vec) (D R : T) : 0 <= R -> 0 <= D -> dist2 n x c = D ^+ 2 ->
  in_ball n c R x <-> D <= R.
Proof. move=> r0 d0 hd; rewrite /in_ball hd !expr2; split=> h; nra. Qed.

(* ---- boxes ---- *)
(* how far a coordinate lies beyond the slab *)
Definition excess (mi ma x : T) : T := zmax (mi - x) (x - ma).
Definition pos (q : T) : T := zmax 0 q.
Lemma box_lower n (mi ma x y : vec) : in_box n (mi, ma) y ->
  \sum_(i < n) pos (excess (mi i) (ma i) (x i)) ^+ 2 <= dist2 n x y.
Proof.
move=> iny; apply: ler_sum => i _.
case/andP: (iny i (ltn_ord i)) => /= a b.
rewrite /pos /excess /zmax; case: (ltrP (mi i - x i)) => c; case: ltrP => d;
  rewrite ?expr0n /= ?sqr_ge0 //; apply: le_sqr2; [lra|left; lra|lra|right; lra].
Qed.
Lemma box_foot n (mi ma x : vec) : box_ok n (mi, ma) ->
  let y : vec := fun i => if x i < mi i then mi i else if ma i < x i then ma i else x i in
  in_box n (mi, ma) y /\ \sum_(i < n) pos (excess (mi i) (ma i) (x i)) ^+ 2 = dist2 n x y.
Proof.
move=> ok y; split.
  move=> i il /=; have := ok i il; rewrite /= /y => o.
  case: ltrP => a; first by rewrite lexx.
  by case: ltrP => b; rewrite ?lexx ?andbT // a.
apply: eq_bigr => i _; have := ok i (ltn_ord i); rewrite /= /y /pos /excess /zmax => o.
case: (ltrP (x i) (mi i)) => a; [|case: (ltrP (ma i) (x i)) => b];
  case: (ltrP (mi i - x i)) => c; case: ltrP => d; rewrite !expr2; nra.
Qed.
Lemma excess_in n (mi ma x : vec) :
  in_box n (mi, ma) x <-> forall i, (i < n)%N -> excess (mi i) (ma i) (x i) <= 0.
Proof.
split=> h i il; have := h i il; rewrite /= /excess /zmax.
  case/andP=> a b; case: ltrP => c; lra.
case: ltrP => c d; apply/andP; split; lra.
Qed.
Lemma boundary_lower n (mi ma x y : vec) (m : T) : in_box n (mi, ma) x ->
  (forall i, (i < n)%N -> excess (mi i) (ma i) (x i) <= m) -> m <= 0 ->
  box_boundary n (mi, ma) y -> m ^+ 2 <= dist2 n x y.
Proof.
move=> inx hm m0 [iny [i il h]].
apply: le_trans (dist2_coord x y il).
have := hm i il; case/andP: (inx i il) => /= a b; rewrite /excess /zmax.
case: ltrP => c; case: h => -> /=; rewrite !expr2; nra.
Qed.
Lemma boundary_foot n (mi ma x : vec) k : box_ok n (mi, ma) -> in_box n (mi, ma) x -> (k < n)%N ->
  exists2 y, box_boundary n (mi, ma) y & excess (mi k) (ma k) (x k) ^+ 2 = dist2 n x y.
Proof.
move=> ok inx kl.
have far v : v = mi k \/ v = ma k ->
    box_boundary n (mi, ma) (vset x k v) /\ dist2 n x (vset x k v) = (x k - v) ^+ 2.
  move=> hv; split.
    split; last by exists k => //; rewrite /vset eqxx.
    move=> i il /=; rewrite /vset; case: eqP => [->|_]; last exact: inx.
    by have := ok k kl; case: hv => -> /= h; rewrite lexx ?andbT h.
  rewrite /dist2 (bigD1 (Ordinal kl)) //= {1}/vset eqxx big1 ?addr0 // => i ne.
  have -> : vset x k v i = x i.
    by rewrite /vset; case: eqP => // h; case/eqP: ne; exact: val_inj.
  by rewrite subrr expr0n.
rewrite /excess /zmax; case: ltrP => c.
  by have [f g] := far (ma k) (or_intror erefl); eexists; [exact: f|rewrite g].
have [f g] := far (mi k) (or_introl erefl); eexists; [exact: f|rewrite g].
by rewrite !expr2; fld.
Qed.
End Geo.
