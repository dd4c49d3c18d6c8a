(* Signed distances of planes, boxes, spheres and cylinders. *)
From mathcomp Require Import all_ssreflect all_algebra.
From Coq Require Import Field.
From Verif Require Import FieldTac NraTac MatModel DistModel AlsModel DistSpec AlsSpec DistProofs2 AlsProofs.
From Verif Require MatProofs.
Set Implicit Arguments.
Unset Strict Implicit.
Unset Printing Implicit Defensive.
Import Order.TTheory GRing.Theory Num.Theory.
Local Open Scope ring_scope.

Section Scalar.
Variable T : realFieldType.
Let F : fieldType := [fieldType of T].
Add Field ffd : (cfield F).
Ltac fld := to_fld F; field.
Ltac nra := fnra_ T.
Ltac lra := flra_ T.
Lemma excess_half (mi ma x : T) :
  (if x - (mi + ma) / 2%:R > 0 then x - (mi + ma) / 2%:R else - (x - (mi + ma) / 2%:R)) - (ma - mi) / 2%:R
  = excess mi ma x.
Proof.
have e1 : (mi + ma) / 2%:R = (mi + ma) * 2%:R^-1 by [].
have two : (2%:R : T) * 2%:R^-1 = 1 by rewrite mulfV // pnatr_eq0.
rewrite /excess /zmax; case: ltrP => a; case: ltrP => b; move: a b two; move: (2%:R^-1 : T) => h a b two; nra.
Qed.
Lemma zminP (a b : T) : (zmin a b <= a) /\ (zmin a b <= b) /\ (zmin a b = a \/ zmin a b = b).
Proof. rewrite /zmin; case: ltrP => c; repeat split; try lra; auto. Qed.
Lemma zmaxP (a b : T) : (a <= zmax a b) /\ (b <= zmax a b) /\ (zmax a b = a \/ zmax a b = b).
Proof. rewrite /zmax; case: ltrP => c; repeat split; try lra; auto. Qed.
End Scalar.

Section Sd.
Variable T : rcfType.
Notation vec := (nat -> T).

Lemma plane_sdE n (o m x : vec) : plane_sd n o m x = inner n m (fun i => x i - o i).
Proof. by rewrite /plane_sd dotE. Qed.
Lemma lengthE n (x c : vec) : length n (vsub x c) = Num.sqrt (dist2 n x c).
Proof. by rewrite /length l2E dist2E. Qed.
Lemma length_sqr n (x c : vec) : dist2 n x c = length n (vsub x c) ^+ 2.
Proof. by rewrite lengthE sqr_sqrtr // dist2_ge0. Qed.
Lemma length_ge0 n (a : vec) : 0 <= length n a.
Proof. exact: sqrtr_ge0. Qed.

Lemma sphere_ok n (c : vec) (R : T) (x : vec) : (0 < n)%N -> 0 <= R ->
  signed_distance n (in_ball n c R) (on_sphere n c R) x (sphere_sd n c R x).
Proof.
move=> n0 r0; have d0 := length_ge0 n (vsub x c); have hd := length_sqr n x c.
have [y oy ey] := sphere_foot n0 r0 d0 hd.
rewrite /sphere_sd; split=> h.
- split; first by rewrite subr_le0; apply/(in_ballP r0 d0 hd).
  apply: least_pt; first by exists y.
  by move=> z oz; apply: (sphere_lower d0 r0 hd).
- have p : R < length n (vsub x c) by rewrite ltNge; apply/negP => k; apply/h/(in_ballP r0 d0 hd).
  split; first by rewrite subr_gt0.
  apply: least_pt; first by exists y => //; rewrite /in_ball oy lexx.
  move=> z; rewrite /in_ball => iz.
  have e0 := length_ge0 n (vsub z c); have he := length_sqr n z c.
  have k := (in_ballP r0 e0 he).1 iz.
  apply: le_trans (sphere_lower d0 e0 hd he); apply: le_sqr2; first by rewrite subr_ge0 ltW.
  by left; rewrite ler_sub.
Qed.

(* ---- boxes ---- *)
Lemma beyondE (mi ma x : vec) i : beyond mi ma x i = excess (mi i) (ma i) (x i).
Proof. by rewrite -excess_half. Qed.
Lemma vmaxP n (a : vec) : (0 < n)%N ->
  (forall i, (i < n)%N -> a i <= vmax n a) /\ (exists2 k, (k < n)%N & vmax n a = a k).
Proof.
case: n => // n _; rewrite /vmax /=.
apply: (MatProofs.loop_ind (P := fun m r => (forall i, (i < m.+1)%N -> a i <= r) /\ exists2 k, (k < m.+1)%N & r = a k)).
  by split; [case|exists 0%N].
move=> i r il [h [k kl e]]; case: ltrP => c.
  split; last by exists i.+1.
  move=> j; rewrite ltnS leq_eqVlt => /orP[/eqP->//|jl]; exact: le_trans (h j jl) (ltW c).
split; last by exists k => //; apply: leqW.
by move=> j; rewrite ltnS leq_eqVlt => /orP[/eqP->//|jl]; exact: h.
Qed.
Lemma clampE n (a : vec) j :
  loop n (fun i p => if p i < 0 then vset p i 0 else p) a j = if (j < n)%N && (a j < 0) then 0 else a j.
Proof.
move: j; apply: (MatProofs.loop_ind (P := fun m p => forall j, p j = if (j < m)%N && (a j < 0) then 0 else a j)) => //.
move=> i p il h j; have pi : p i = a i by rewrite h ltnn.
rewrite pi ltnS leq_eqVlt; case: ifP => c; rewrite ?/vset.
  by case: eqP => [->|_]; [rewrite c|rewrite h].
by case: eqP => [->|_]; [rewrite c pi|rewrite h].
Qed.
Lemma length_clamp n (mi ma x : vec) :
  length n (loop n (fun i p => if p i < 0 then vset p i 0 else p) (beyond mi ma x)) ^+ 2
  = \sum_(i < n) pos (excess (mi i) (ma i) (x i)) ^+ 2.
Proof.
rewrite /length sqr_sqrtr; last by rewrite l2E sdot_ge0.
rewrite l2E; apply: eq_bigr => i _; rewrite clampE ltn_ord beyondE /= -expr2; congr (_ ^+ 2).
by rewrite /pos /zmax; case: ltrgt0P.
Qed.
Lemma cuboid_ok n (mi ma x : vec) : (0 < n)%N -> box_ok n (mi, ma) ->
  signed_distance n (in_box n (mi, ma)) (box_boundary n (mi, ma)) x (cuboid_sd n mi ma x).
Proof.
move=> n0 ok; have [mx [k kl ek]] := vmaxP (beyond mi ma x) n0.
have lc := length_clamp n mi ma x; have l0 := length_ge0 n
  (loop n (fun i p => if p i < 0 then vset p i 0 else p) (beyond mi ma x)).
rewrite /cuboid_sd; move: lc l0 mx ek.
move: (length _ _) (vmax _ _) => l m lc l0 mx; rewrite beyondE => ek.
have mx' i : (i < n)%N -> excess (mi i) (ma i) (x i) <= m by move=> il; rewrite -beyondE mx.
have inP := excess_in n mi ma x.
split=> h.
- have ex := inP.1 h.
  have lz : l = 0.
    apply/eqP; rewrite -sqrf_eq0 lc big1 // => i _.
    have := ex i (ltn_ord i); rewrite /pos /zmax; case: ltrgt0P => // _ _; by rewrite expr0n.
  have m0 : m <= 0 by rewrite ek ex.
  have -> : (if m < 0 then m else 0) + l = m.
    by rewrite lz addr0; case: ltrP => // c; apply/eqP; rewrite eq_le c.
  split=> //; apply: least_pt; first by rewrite ek; exact: boundary_foot.
  by move=> y; apply: boundary_lower.
- have m0 : 0 < m.
    rewrite ltNge; apply/negP => m0; apply/h/inP => i il; exact: le_trans (mx' i il) m0.
  have -> : (if m < 0 then m else 0) = 0 by rewrite ltNge (ltW m0).
  rewrite add0r; split.
    rewrite lt_neqAle l0 andbT eq_sym -sqrf_eq0 lc psumr_eq0; last by move=> i _; rewrite sqr_ge0.
    apply/negP => /allP/(_ (Ordinal kl) (mem_index_enum _)) /=.
    by rewrite -ek /pos /zmax m0 sqrf_eq0 gt_eqF.
  have [f g] := box_foot x ok.
  rewrite lc; apply: least_pt; first by eexists; [exact: f|exact: g].
  by move=> y; apply: box_lower.
Qed.
(* distance(box, p) *)
Lemma box_distanceE lowest n (mi ma x : vec) : (0 < n)%N ->
  (forall i, (i < n)%N -> lowest <= (mi i - ma i) / 2%:R) ->
  box_distance lowest n mi ma x = cuboid_sd n mi ma x.
Proof.
move=> n0 low.
have low' i : (i < n)%N -> lowest <= beyond mi ma x i.
  move=> il; apply: le_trans (low i il) _; rewrite /beyond -[mi i - ma i]opprB mulNr ler_addr.
  by rewrite /vabs; case: ltrP => c; [exact: ltW|rewrite oppr_ge0].
rewrite /box_distance /cuboid_sd.
set f := (fun d mp => _); set a := beyond mi ma x.
have h : (loop n f (lowest, a)).1 = vmax n a /\
         (forall j, (loop n f (lowest, a)).2 j = if (j < n)%N && (a j < 0) then 0 else a j).
  have [mx [k kl ek]] := vmaxP a n0.
  suff [[h1 h2] h3] : ((forall i, (i < n)%N -> a i <= (loop n f (lowest, a)).1)
      /\ ((exists2 k, (k < n)%N & (loop n f (lowest, a)).1 = a k) \/ (loop n f (lowest, a)).1 = lowest))
      /\ (forall j, (loop n f (lowest, a)).2 j = if (j < n)%N && (a j < 0) then 0 else a j).
    split=> //; apply/eqP; rewrite eq_le; apply/andP; split.
      case: h2 => [[k' kl' ->]|->]; first exact: mx.
      exact: le_trans (low' k kl) (mx k kl).
    by rewrite ek h1.
  apply: (MatProofs.loop_ind (P := fun m (s : T * vec) =>
     ((forall i, (i < m)%N -> a i <= s.1) /\ ((exists2 k, (k < m)%N & s.1 = a k) \/ s.1 = lowest))
      /\ (forall j, s.2 j = if (j < m)%N && (a j < 0) then 0 else a j))).
    by split=> //; split=> //; right.
  move=> i [m p] il /= [[h1 h2] h3]; have pi : p i = a i by rewrite h3 ltnn.
  rewrite /f pi /=; split; [split|].
  + move=> j; rewrite ltnS leq_eqVlt => /orP[/eqP->|jl].
      by case: ltrP.
    case: ltrP => c; last exact: h1.
    exact: le_trans (h1 j jl) (ltW c).
  + case: ltrP => c; first by left; exists i.
    by case: h2 => [[k' kl' e]|e]; [left; exists k' => //; apply: leqW|right].
  + move=> j; rewrite ltnS leq_eqVlt; case: ifP => c; rewrite ?/vset.
      by case: eqP => [->|_]; [rewrite c|rewrite h3].
    by case: eqP => [->|_]; [rewrite c pi|rewrite h3].
case: (loop n f (lowest, a)) h => m p /= [-> hp].
congr (_ + _); rewrite /length; congr Num.sqrt; rewrite !l2E; apply: eq_bigr => i _.
by rewrite hp clampE.
Qed.
End Sd.
