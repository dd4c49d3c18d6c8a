(* Bounding boxes: of the solids, overlap, merge, broad phase. *)
From mathcomp Require Import all_ssreflect all_algebra.
From Coq Require Import Field.
From Verif Require Import FieldTac NraTac MatModel DistModel AlsModel DistSpec AlsSpec DistProofs2 AlsProofs AlsProofs2 AlsProofs3.
From Verif Require MatProofs.
Set Implicit Arguments.
Unset Strict Implicit.
Unset Printing Implicit Defensive.
Import Order.TTheory GRing.Theory Num.Theory.
Local Open Scope ring_scope.

Section Scalar.
Variable T : realFieldType.
Let F : fieldType := [fieldType of T].
Add Field ffd : (cfield F).
Ltac fld := to_fld F; field.
Ltac nra := fnra_ T.
Ltac lra := flra_ T.
Notation vec := (nat -> T).

Lemma vset_dist2 n (c : vec) k v : (k < n)%N -> dist2 n (vset c k v) c = (v - c k) ^+ 2.
Proof.
move=> kl; rewrite /dist2 (bigD1 (Ordinal kl)) //= {1}/vset eqxx big1 ?addr0 // => i ne.
have -> : vset c k v i = c i.
  by rewrite /vset; case: eqP => // h; case/eqP: ne; exact: val_inj.
by rewrite subrr expr0n.
Qed.
Lemma ball_bounds n (c : vec) (R : T) : 0 <= R ->
  bounds n (in_ball n c R) (fun i => c i - R, fun i => c i + R).
Proof.
move=> r0; split.
  move=> x h i il; have := le_trans (dist2_coord x c il) h.
  by move/(sqr_le r0)/andP=> [a b] /=; apply/andP; split; lra.
move=> b h i il /=.
have e1 : in_ball n c R (vset c i (c i - R)).
  by rewrite /in_ball vset_dist2 // addrC addKr sqrrN.
have e2 : in_ball n c R (vset c i (c i + R)).
  by rewrite /in_ball vset_dist2 // addrC addKr.
by case/andP: (h _ e1 i il) (h _ e2 i il); rewrite /vset eqxx => ? _ /andP[].
Qed.
Lemma cylinder_bounds (b : vec) (R l : T) d : (d < 3)%N -> 0 <= R -> 0 <= l ->
  bounds 3 (in_cylinder b R l d)
    (fun i => if i == d then b i else b i - R, fun i => if i == d then b i + l else b i + R).
Proof.
move=> dl r0 l0; split.
  move=> x [h1 h2] i il /=; case: eqP => [->//|/eqP ne].
  have : (x i - b i) ^+ 2 <= R ^+ 2.
    apply: le_trans h1; rewrite /radial2 (bigD1 (Ordinal il)) //= ler_addl.
    by apply: sumr_ge0 => j _; rewrite sqr_ge0.
  by move/(sqr_le r0)/andP=> [a c] /=; apply/andP; split; lra.
move=> bx h i il /=.
have side k v : k != d -> (k < 3)%N -> v = R \/ v = - R -> in_cylinder b R l d (vset b k (b k + v)).
  move=> ne kl hv; split; last by rewrite /vset eq_sym (negbTE ne) lexx ler_addl l0.
  rewrite /radial2 (bigD1 (Ordinal kl)) //= big1 ?addr0.
    rewrite /vset eqxx.
    have -> : b k + v - b k = v by fld.
    by case: hv => ->; rewrite ?sqrrN.
  move=> j /andP[_ nj]; have -> : vset b k (b k + v) j = b j.
    by rewrite /vset; case: eqP => // e; case/eqP: nj; exact: val_inj.
  by rewrite subrr expr0n.
have cap v : 0 <= v <= l -> in_cylinder b R l d (vset b d (b d + v)).
  move=> /andP[v0 v1]; split; last by rewrite /vset eqxx ler_addl ler_add2l v0.
  rewrite /radial2 big1 ?sqr_ge0 // => j nj; rewrite /vset (negbTE nj) subrr expr0n //.
case: eqP => [->|/eqP ne].
  have := h _ (cap 0 _) d dl; rewrite lexx l0 /= => /(_ isT)/andP[]; rewrite /vset eqxx addr0 => -> _.
  by have := h _ (cap l _) d dl; rewrite lexx l0 /= => /(_ isT)/andP[_]; rewrite /vset eqxx.
have := h _ (side i _ ne il (or_intror erefl)) i il; rewrite /vset eqxx => /andP[-> _].
by have := h _ (side i _ ne il (or_introl erefl)) i il; rewrite /vset eqxx => /andP[_ ->].
Qed.

Lemma seg_between (lo hi a b s : T) : 0 <= s <= 1 -> lo <= a <= hi -> lo <= b <= hi ->
  lo <= (1 - s) * a + s * b <= hi.
Proof. case/andP=> s0 s1 /andP[a0 a1] /andP[b0 b1]; apply/andP; split; nra. Qed.
Lemma tri_between (lo hi a b c s t : T) : 0 <= s -> 0 <= t -> s + t <= 1 ->
  lo <= a <= hi -> lo <= b <= hi -> lo <= c <= hi -> lo <= (1 - s - t) * a + s * b + t * c <= hi.
Proof.
move=> s0 t0 st /andP[a0 a1] /andP[b0 b1] /andP[c0 c1].
have r0 : 0 <= 1 - s - t by lra.
have ha0 : 0 <= (1 - s - t) * (a - lo) by apply: mulr_ge0 => //; lra.
have hb0 : 0 <= s * (b - lo) by apply: mulr_ge0 => //; lra.
have hc0 : 0 <= t * (c - lo) by apply: mulr_ge0 => //; lra.
have ha1 : 0 <= (1 - s - t) * (hi - a) by apply: mulr_ge0 => //; lra.
have hb1 : 0 <= s * (hi - b) by apply: mulr_ge0 => //; lra.
have hc1 : 0 <= t * (hi - c) by apply: mulr_ge0 => //; lra.
by apply/andP; split; lra.
Qed.
(* a coordinate of a moving point stays between its start and its end *)
Lemma move_between (lo hi x v tau toc : T) : 0 <= tau <= toc ->
  lo <= x <= hi -> lo <= x + toc * v <= hi -> lo <= x + tau * v <= hi.
Proof.
case/andP=> t0 t1 /andP[a0 a1] /andP[b0 b1].
case: (ltrP v 0) => vs.
  by apply/andP; split; nra.
by apply/andP; split; nra.
Qed.
Lemma spheres_meet n (ca cb : vec) (ra rb : T) : 0 <= ra -> 0 <= rb ->
  dist2 n ca cb <= (ra + rb) * (ra + rb) <-> exists x, in_ball n ca ra x /\ in_ball n cb rb x.
Proof.
move=> a0 b0; split.
  move=> h; case: (eqVneq (ra + rb) 0) => z.
    have [za zb] : ra = 0 /\ rb = 0.
      by move/eqP: z; rewrite paddr_eq0 // => /andP[/eqP-> /eqP->].
    exists ca; rewrite /in_ball dist2_self sqr_ge0; split=> //.
    by apply: le_trans h _; rewrite za zb !expr2 addr0.
  have zn : (ra + rb) <> 0 by apply/eqP.
  have p : 0 < ra + rb by rewrite lt_neqAle eq_sym z addr_ge0.
  exists (fun i => ca i + ra / (ra + rb) * (cb i - ca i)); rewrite /in_ball.
  have -> : dist2 n (fun i => ca i + ra / (ra + rb) * (cb i - ca i)) ca = (ra / (ra + rb)) ^+ 2 * dist2 n ca cb.
    rewrite /dist2 mulr_sumr; apply: eq_bigr => i _; rewrite !expr2; by fld.
  have -> : dist2 n (fun i => ca i + ra / (ra + rb) * (cb i - ca i)) cb = (rb / (ra + rb)) ^+ 2 * dist2 n ca cb.
    rewrite /dist2 mulr_sumr; apply: eq_bigr => i _; rewrite !expr2; by fld.
  have k (r : T) : (r / (ra + rb)) ^+ 2 * dist2 n ca cb <= r ^+ 2.
    have -> : r ^+ 2 = (r / (ra + rb)) ^+ 2 * ((ra + rb) * (ra + rb)) by rewrite !expr2; fld.
    by rewrite ler_wpmul2l ?sqr_ge0.
  by split; apply: k.
move=> [x []]; rewrite /in_ball => h k.
have -> : dist2 n ca cb = dist2 n x ca + dist2 n x cb - 2%:R * sdot n (vsub x ca) (vsub x cb).
  rewrite /dist2 /sdot mulr_sumr -big_split -sumrB; apply: eq_bigr => i _.
  rewrite /vsub /= !expr2; by fld.
have := cs n (vsub x ca) (vsub x cb); rewrite -!dist2E.
have := dist2_ge0 n x ca; have := dist2_ge0 n x cb.
move: (sdot n _ _) (dist2 n x ca) (dist2 n x cb) h k => p u v; rewrite !expr2 => h k u0 v0 q.
have m : u * v <= (ra * rb) * (ra * rb).
  have : u * v <= (ra * ra) * (rb * rb) by apply: ler_pmul.
  lra.
have : - (ra * rb) <= p.
  rewrite leNgt; apply/negP => c.
  have r : 0 <= ra * rb by apply: mulr_ge0.
  have : (ra * rb) * (ra * rb) < p * p by move: c r; clear; nra.
  lra.
lra.
Qed.
End Scalar.

Section Boxes.
Variable T : rcfType.
Ltac nra := fnra_ T.
Ltac lra := flra_ T.
Notation vec := (nat -> T).
Notation box := (vec * vec)%type.
Lemma bounds_ext n (P : vec -> Prop) (a b : box) :
  (forall i, (i < n)%N -> a.1 i = b.1 i /\ a.2 i = b.2 i) -> bounds n P a -> bounds n P b.
Proof.
move=> e [h k]; split.
  by move=> x px i il; have := h x px i il; have [-> ->] := e i il.
by move=> c hc i il; have := k c hc i il; have [-> ->] := e i il.
Qed.
Lemma overlapsP n (a b : box) : box_ok n a -> box_ok n b ->
  overlaps n a b <-> exists x, in_box n a x /\ in_box n b x.
Proof.
move=> oka okb; split.
  move=> h; exists (fun i => if a.1 i < b.1 i then b.1 i else a.1 i).
  have hi i : (i < n)%N -> (b.1 i <= a.2 i) /\ (a.1 i <= b.2 i).
    move=> il; have /(allP h) : i \in iota 0 n by rewrite mem_iota.
    by rewrite negb_or -!leNgt => /andP[].
  by split=> i il; have [h1 h2] := hi i il; have := oka i il; have := okb i il;
    case: ltrP => c; rewrite ?lexx ?h1 ?h2 ?c ?(ltW c) // => -> ->.
move=> [x [ha hb]]; apply/allP => i; rewrite mem_iota add0n => /andP[_ il].
case/andP: (ha i il) => a0 a1; case/andP: (hb i il) => b0 b1.
by rewrite negb_or -!leNgt (le_trans b0 a1) (le_trans a0 b1).
Qed.
Lemma overlaps_pointP n (p : vec) (b : box) : overlaps_point n p b <-> in_box n b p.
Proof.
split=> [h i il|h].
  have /(allP h) : i \in iota 0 n by rewrite mem_iota.
  by rewrite negb_or -!leNgt.
apply/allP => i; rewrite mem_iota add0n => /andP[_ il].
by rewrite negb_or -!leNgt; exact: h.
Qed.
Lemma mergeE n (b : box) (p : vec) i : (i < n)%N ->
  (merge n b p).1 i = zmin (b.1 i) (p i) /\ (merge n b p).2 i = zmax (b.2 i) (p i).
Proof.
move=> il; suff h : forall j, (merge n b p).1 j = (if (j < n)%N then zmin (b.1 j) (p j) else b.1 j) /\
    (merge n b p).2 j = (if (j < n)%N then zmax (b.2 j) (p j) else b.2 j) by have := h i; rewrite il.
rewrite /merge; apply: (MatProofs.loop_ind (P := fun m (s : box) => forall j,
  s.1 j = (if (j < m)%N then zmin (b.1 j) (p j) else b.1 j) /\
  s.2 j = (if (j < m)%N then zmax (b.2 j) (p j) else b.2 j))) => //.
move=> k s kl h j /=; have [e1 e2] := h k; rewrite ltnn in e1 e2.
rewrite /vset ltnS leq_eqVlt; case: eqP => [->|_] /=; first by rewrite e1 e2.
exact: h.
Qed.
Lemma merge_ok n (b : box) (p : vec) :
  [/\ forall i, (i < n)%N -> (merge n b p).1 i <= p i <= (merge n b p).2 i, within_box n b (merge n b p)
    & forall c, within_box n b c -> in_box n c p -> within_box n (merge n b p) c].
Proof.
split.
- move=> i il; have [-> ->] := mergeE b p il.
  by have [_ [-> _]] := zminP (b.1 i) (p i); have [_ [-> _]] := zmaxP (b.2 i) (p i).
- move=> i il; have [-> ->] := mergeE b p il.
  by have [-> _] := zminP (b.1 i) (p i); have [-> _] := zmaxP (b.2 i) (p i).
- move=> c h k i il; have [-> ->] := mergeE b p il; have [c1 c2] := h i il; case/andP: (k i il) => k1 k2.
  have [_ [_ z]] := zminP (b.1 i) (p i); have [_ [_ w]] := zmaxP (b.2 i) (p i).
  by split; [case: z => ->|case: w => ->].
Qed.
Lemma bounding_boxP (a b : vec) i :
  let bb := get_bounding_box a b in
  [/\ bb.1 i <= a i <= bb.2 i, bb.1 i <= b i <= bb.2 i, bb.1 i = a i \/ bb.1 i = b i & bb.2 i = a i \/ bb.2 i = b i].
Proof.
rewrite /get_bounding_box /=.
by case: ltrgtP => c; split; rewrite ?lexx ?(ltW c) ?c ?lexx //; auto.
Qed.
Lemma uniform_coord_ok (b : box) (p : vec) d : b.1 d < b.2 d ->
  exists2 u, uniform_coord b p d = Some u & 0 <= u <= 1 /\
    b.1 d + u * (b.2 d - b.1 d) = if p d < b.1 d then b.1 d else if b.2 d < p d then b.2 d else p d.
Proof.
move=> lt; have l0 : 0 < b.2 d - b.1 d by rewrite subr_gt0.
have ln := lt0r_neq0 l0.
rewrite /uniform_coord /quo (negbTE ln); eexists; first reflexivity.
rewrite divfK // /clamp subr_lt0 ltr_sub_addr subrK; case: ifP => c.
  by rewrite mul0r lexx ler01 addr0.
case: ifP => e.
  by rewrite divff // ler01 lexx addrC subrK.
split; last by rewrite addrC subrK.
have d0 : b.1 d <= p d by rewrite leNgt c.
have d1 : p d <= b.2 d by rewrite leNgt e.
apply/andP; split; first by rewrite divr_ge0 ?subr_ge0 // ltW.
by rewrite ler_pdivr_mulr // mul1r ler_add2r.
Qed.
End Boxes.
