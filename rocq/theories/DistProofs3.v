(* The closest points of two segments: the optimality conditions. *)
From mathcomp Require Import all_ssreflect all_algebra.
From Coq Require Import Field.
From Verif Require Import FieldTac NraTac MatModel DistModel DistSpec.
Set Implicit Arguments.
Unset Strict Implicit.
Unset Printing Implicit Defensive.
Import Order.TTheory GRing.Theory Num.Theory.
Local Open Scope ring_scope.

Section Scalar.
Variable T : realFieldType.
Let F : fieldType := [fieldType of T].
Add Field ffd : (cfield F).
Ltac fld := to_fld F; field.
Ltac nra := fnra_ T.
Ltac lra := flra_ T.

(* no direction into the square of parameters decreases the distance *)
Definition bkkt (a b c d e s t : T) : Prop :=
  let gs := a * s - b * t + d in
  let gt := c * t - b * s - e in
  [/\ gs * s <= 0, 0 <= gs * (1 - s), gt * t <= 0 & 0 <= gt * (1 - t)].
Definition in01 (x : T) : Prop := 0 <= x /\ x <= 1.

(* a number is zero or not below the tolerance *)
Definition clear (eps x : T) : Prop := x = 0 \/ eps <= `|x|.

Lemma frac (eps x y : T) : 0 < eps -> clear eps x -> 0 <= x -> x <= y ->
  exists q, (if `|x| < eps then Some 0 else quo x y) = Some q /\ q * y = x /\ (0 < y \/ q = 0 /\ x = 0 /\ y = 0).
Proof.
move=> e0 cl x0 xy.
case: cl => [z|h].
  rewrite z normr0 e0; exists 0; rewrite mul0r; split=> //; split=> //.
  by case: (ltrP 0 y) => c; [left|right; split=> //; split=> //; lra].
have xp : 0 < x by move: h; rewrite ger0_norm // => h; lra.
rewrite ltNge h /= /quo.
have yp : 0 < y by lra.
rewrite (gt_eqF yp); exists (x / y); split=> //; split; last by left.
by rewrite divfK // (gt_eqF yp).
Qed.

Section Cond.
Variables a b c d e : T.
(* what dot products of vectors u, v, w satisfy *)
Hypothesis a0 : 0 <= a.
Hypothesis c0 : 0 <= c.
Hypothesis D0 : 0 <= a * c - b * b.
Hypothesis ad : a = 0 -> d = 0.
Hypothesis ce : c = 0 -> e = 0.
Hypothesis par : a * c - b * b = 0 -> b * e = c * d /\ a * e = b * d.

(* the lower end of the second segment *)
Lemma low_1 : a * c - b * b = 0 -> e <= 0 -> 
  (- d < 0 -> bkkt a b c d e 0 0) /\ (- d > a -> bkkt a b c d e 1 0) /\
  (forall q, 0 <= - d <= a -> q * a = - d -> (0 < a \/ q = 0 /\ - d = 0 /\ a = 0) -> in01 q /\ bkkt a b c d e q 0).
Proof.
move=> z h; have [h1 h2] := par z; split; last split; rewrite /bkkt.
- by move=> k; split; nra.
- by move=> k; split; nra.
- move=> q /andP [k1 k2] qa [ap|[-> [k k']]].
    by split; [split; nra|split; nra].
  by split; [split; lra|split; nra].
Qed.
Lemma low_2 : 0 < a * c - b * b -> b * e - c * d <= 0 -> e <= 0 -> 
  (- d < 0 -> bkkt a b c d e 0 0) /\ (- d > a -> bkkt a b c d e 1 0) /\
  (forall q, 0 <= - d <= a -> q * a = - d -> in01 q /\ bkkt a b c d e q 0).
Proof.
move=> z h h1; have ap : 0 < a by nra.
split; last split; rewrite /bkkt.
- by move=> k; split; nra.
- by move=> k; split; nra.
- move=> q /andP [k1 k2] qa.
  have g : a * e <= b * d.
    have cp : 0 < c by nra.
    case: (ltrP 0 b) => bs; last by nra.
    by rewrite -(ler_pmul2l bs); nra.
  by split; [split; nra|split; nra].
Qed.
Lemma low_3 : 0 < a * c - b * b -> a * c - b * b <= b * e - c * d -> e + b <= 0 -> 
  (- d < 0 -> bkkt a b c d e 0 0) /\ (- d > a -> bkkt a b c d e 1 0) /\
  (forall q, 0 <= - d <= a -> q * a = - d -> in01 q /\ bkkt a b c d e q 0).
Proof.
move=> z h h1; have ap : 0 < a by nra.
split; last split; rewrite /bkkt.
- by move=> k; split; nra.
- by move=> k; split; nra.
- move=> q /andP [k1 k2] qa.
  have cp : 0 < c by nra.
  have g : a * e <= b * d.
    case: (ltrP b 0) => bs.
      have bn : 0 < - b by lra.
      by rewrite -(ler_pmul2l bn); nra.
    have z1 : a + d = 0 by nra.
    have z2 : d = - a by lra.
    rewrite z2; nra.
  by split; [split; nra|split; nra].
Qed.
Lemma low_4 : 0 < a * c - b * b -> 0 <= b * e - c * d -> b * e - c * d <= a * c - b * b ->
  a * e - b * d <= 0 -> 
  (- d < 0 -> bkkt a b c d e 0 0) /\ (- d > a -> bkkt a b c d e 1 0) /\
  (forall q, 0 <= - d <= a -> q * a = - d -> in01 q /\ bkkt a b c d e q 0).
Proof.
move=> z h h0 h1; have ap : 0 < a by nra.
split; last split; rewrite /bkkt.
- move=> k.
  have ? : b <= 0 by nra.
  by split; nra.
- move=> k.
  have ? : 0 <= b by nra.
  by split; nra.
- move=> q /andP [k1 k2] qa.
  by split; [split; nra|split; nra].
Qed.

(* between the ends of the second segment *)
Lemma mid_1 (t : T) : a * c - b * b = 0 -> 0 < c -> t * c = e -> 0 <= e <= c -> in01 t /\ bkkt a b c d e 0 t.
Proof.
move=> z cp tc /andP [h1 h2]; have [k1 k2] := par z; rewrite /bkkt.
have k : d = b * t.
  by apply: (mulIf (negbT (gt_eqF cp))); rewrite -mulrA tc k1 mulrC.
by split; [split; nra|split; nra].
Qed.
Lemma mid_2 (t : T) : 0 < a * c - b * b -> b * e - c * d <= 0 -> t * c = e -> 0 <= e <= c ->
  in01 t /\ bkkt a b c d e 0 t.
Proof.
move=> z h tc /andP [h1 h2]; rewrite /bkkt.
have cp : 0 < c by nra.
have k : 0 <= (d - b * t) * c by nra.
rewrite pmulr_lge0 // in k.
by split; [split; nra|split; nra].
Qed.
Lemma mid_3 (t : T) : 0 < a * c - b * b -> a * c - b * b <= b * e - c * d -> t * c = e + b -> 0 <= e + b <= c ->
  in01 t /\ bkkt a b c d e 1 t.
Proof.
move=> z h tc /andP [h1 h2]; rewrite /bkkt.
have cp : 0 < c by nra.
have k : 0 <= (b * t - a - d) * c by nra.
rewrite pmulr_lge0 // in k.
by split; [split; nra|split; nra].
Qed.
Lemma mid_4 (s t : T) : 0 < a * c - b * b -> s * (a * c - b * b) = b * e - c * d ->
  t * (a * c - b * b) = a * e - b * d -> 0 <= b * e - c * d <= a * c - b * b ->
  0 <= a * e - b * d <= a * c - b * b ->
  [/\ in01 s, in01 t, bkkt a b c d e s t, a * s - b * t + d = 0 & c * t - b * s - e = 0].
Proof.
move=> z hs ht /andP [h1 h2] /andP [h3 h4]; rewrite /bkkt.
have g1 : a * s - b * t + d = 0.
  apply: (mulIf (negbT (gt_eqF z))); rewrite mul0r.
  have -> : forall D, (a * s - b * t + d) * D = a * (s * D) - b * (t * D) + d * D by move=> D; fld.
  by rewrite hs ht; fld.
have g2 : c * t - b * s - e = 0.
  apply: (mulIf (negbT (gt_eqF z))); rewrite mul0r.
  have -> : forall D, (c * t - b * s - e) * D = c * (t * D) - b * (s * D) - e * D by move=> D; fld.
  by rewrite hs ht; fld.
rewrite g1 g2; split=> //; [split; nra | split; nra | split; nra].
Qed.
End Cond.

Section Upper.
Variables a b c d e : T.
Hypothesis a0 : 0 <= a.
Hypothesis c0 : 0 <= c.
Hypothesis D0 : 0 <= a * c - b * b.
Hypothesis ad : a = 0 -> d = 0.
Hypothesis ce : c = 0 -> e = 0.
Hypothesis par : a * c - b * b = 0 -> b * e = c * d /\ a * e = b * d.
Lemma bkkt_flip (s t t' : T) : t = 1 - t' -> bkkt a (- b) c (d - b) (c - e) s t' -> bkkt a b c d e s t.
Proof. by move=> ->; rewrite /bkkt /= => -[h1 h2 h3 h4]; split; nra. Qed.
Let Df : a * c - b * b = a * c - - b * - b. Proof. by fld. Qed.
Lemma up_1 : a * c - b * b = 0 -> c <= e ->
  (- d + b < 0 -> bkkt a b c d e 0 1) /\ (- d + b > a -> bkkt a b c d e 1 1) /\
  (forall q, 0 <= - d + b <= a -> q * a = - d + b -> (0 < a \/ q = 0 /\ - d + b = 0 /\ a = 0) -> in01 q /\ bkkt a b c d e q 1).
Proof.
move=> z h; have [h1 h2] := par z.
have E : - (d - b) = - d + b by fld.
have := @low_1 a (- b) c (d - b) (c - e); rewrite -Df E => L.
case: L => //.
- by move=> _; split; lra.
- lra.
move=> l1 [l2 l3]; split; last split.
- by move/l1; apply: bkkt_flip; rewrite subr0.
- by move/l2; apply: bkkt_flip; rewrite subr0.
- move=> q k1 k2 k3; case: (l3 q k1 k2 k3) => i b'; split=> //.
  by apply: bkkt_flip b'; rewrite subr0.
Qed.
Lemma up_2 : 0 < a * c - b * b -> b * e - c * d <= 0 -> c <= e ->
  (- d + b < 0 -> bkkt a b c d e 0 1) /\ (- d + b > a -> bkkt a b c d e 1 1) /\
  (forall q, 0 <= - d + b <= a -> q * a = - d + b -> in01 q /\ bkkt a b c d e q 1).
Proof.
move=> z h0 h.
have E : - (d - b) = - d + b by fld.
have := @low_2 a (- b) c (d - b) (c - e); rewrite -Df E => L.
case: L => //; try lra.
move=> l1 [l2 l3]; split; last split.
- by move/l1; apply: bkkt_flip; rewrite subr0.
- by move/l2; apply: bkkt_flip; rewrite subr0.
- move=> q k1 k2; case: (l3 q k1 k2) => i b'; split=> //.
  by apply: bkkt_flip b'; rewrite subr0.
Qed.
Lemma up_3 : 0 < a * c - b * b -> a * c - b * b <= b * e - c * d -> c <= e + b ->
  (- d + b < 0 -> bkkt a b c d e 0 1) /\ (- d + b > a -> bkkt a b c d e 1 1) /\
  (forall q, 0 <= - d + b <= a -> q * a = - d + b -> in01 q /\ bkkt a b c d e q 1).
Proof.
move=> z h0 h.
have E : - (d - b) = - d + b by fld.
have := @low_3 a (- b) c (d - b) (c - e); rewrite -Df E => L.
case: L => //; try lra.
move=> l1 [l2 l3]; split; last split.
- by move/l1; apply: bkkt_flip; rewrite subr0.
- by move/l2; apply: bkkt_flip; rewrite subr0.
- move=> q k1 k2; case: (l3 q k1 k2) => i b'; split=> //.
  by apply: bkkt_flip b'; rewrite subr0.
Qed.
Lemma up_4 : 0 < a * c - b * b -> 0 <= b * e - c * d -> b * e - c * d <= a * c - b * b ->
  a * c - b * b <= a * e - b * d ->
  (- d + b < 0 -> bkkt a b c d e 0 1) /\ (- d + b > a -> bkkt a b c d e 1 1) /\
  (forall q, 0 <= - d + b <= a -> q * a = - d + b -> in01 q /\ bkkt a b c d e q 1).
Proof.
move=> z h0 h1 h.
have E : - (d - b) = - d + b by fld.
have := @low_4 a (- b) c (d - b) (c - e); rewrite -Df E => L.
case: L => //; try lra.
move=> l1 [l2 l3]; split; last split.
- by move/l1; apply: bkkt_flip; rewrite subr0.
- by move/l2; apply: bkkt_flip; rewrite subr0.
- move=> q k1 k2; case: (l3 q k1 k2) => i b'; split=> //.
  by apply: bkkt_flip b'; rewrite subr0.
Qed.
End Upper.
End Scalar.
