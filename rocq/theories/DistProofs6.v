(* The functions of Distance.hpp. *)
From mathcomp Require Import all_ssreflect all_algebra.
From Coq Require Import Field.
From Verif Require Import FieldTac NraTac MatModel DistModel DistSpec DistProofs DistProofs2 DistProofs3 DistProofs4 DistProofs5.
From Verif Require RotProofs.
Set Implicit Arguments.
Unset Strict Implicit.
Unset Printing Implicit Defensive.
Import Order.TTheory GRing.Theory Num.Theory.
Local Open Scope ring_scope.

Section Pe.
Variable T : realFieldType.
Let F : fieldType := [fieldType of T].
Add Field ffd : (cfield F).
Ltac fld := to_fld F; field.
Ltac nra := fnra_ T.
Ltac lra := flra_ T.
Notation vec := (nat -> T).

Lemma sdot3 (x y : vec) : sdot 3 x y = x 0%N * y 0%N + x 1%N * y 1%N + x 2%N * y 2%N.
Proof. by rewrite /sdot !big_ord_recl big_ord0 /= addr0 addrA. Qed.
Lemma sdot2 (x y : vec) : sdot 2 x y = x 0%N * y 0%N + x 1%N * y 1%N.
Proof. by rewrite /sdot !big_ord_recl big_ord0 /= addr0. Qed.
Lemma sdot1 (x y : vec) : sdot 1 x y = x 0%N * y 0%N.
Proof. by rewrite /sdot !big_ord_recl big_ord0 /= addr0. Qed.
Lemma crossE (x y : vec) : (cross3 x y 0%N = x 1%N * y 2%N - x 2%N * y 1%N) *
  (cross3 x y 1%N = x 2%N * y 0%N - x 0%N * y 2%N) * (cross3 x y 2%N = x 0%N * y 1%N - x 1%N * y 0%N).
Proof. by []. Qed.

Section Seg.
Variables (n : nat) (p e0 e1 : vec).
Let e := vsub e1 e0.
Let a := sdot n e e.
Let g := sdot n e (vsub p e0).
Let q := sdot n (vsub p e0) (vsub p e0).
Lemma pe_quad (s : T) : dist2 n p (seg_at e0 e1 s) = a * s * s - 2%:R * g * s + q.
Proof.
rewrite dist2E.
have -> : sdot n (vsub p (seg_at e0 e1 s)) (vsub p (seg_at e0 e1 s))
  = sdot n (lin2 1 (vsub p e0) (- s) e) (lin2 1 (vsub p e0) (- s) e).
  apply: eq_bigr => i _; rewrite /lin2 /e /vsub /seg_at; by fld.
by rewrite sdot_lin (sdotC n (vsub p e0) e) -/a -/g -/q; fld.
Qed.
Lemma pp_at0 : dist2_pp n p e0 = dist2 n p (seg_at e0 e1 0).
Proof. by rewrite /dist2_pp l2E pe_quad /q; rewrite !mulr0 subrr add0r; apply: eq_bigr => i _; rewrite /vsub; fld. Qed.
Lemma pp_at1 : dist2_pp n p e1 = dist2 n p (seg_at e0 e1 1).
Proof. by rewrite /dist2_pp l2E dist2E; apply: eq_bigr => i _; rewrite /vsub /seg_at; fld. Qed.
Lemma a_ge0 : 0 <= a. Proof. exact: sdot_ge0. Qed.

Lemma pe_least0 : g <= 0 -> least_dist2 n (eq p) (on_seg e0 e1) (dist2 n p (seg_at e0 e1 0)).
Proof.
move=> h; split; first by exists p, (seg_at e0 e1 0); split=> //; exists 0; rewrite lexx ler01.
move=> x y <- [s [/andP [s0 s1] ->]]; rewrite !pe_quad; have := a_ge0 => a0.
have : 0 <= a * (s * s) by rewrite mulr_ge0 // mulr_ge0.
have : 0 <= - g * s by rewrite mulr_ge0 //; lra.
lra.
Qed.
Lemma pe_least1 : a <= g -> least_dist2 n (eq p) (on_seg e0 e1) (dist2 n p (seg_at e0 e1 1)).
Proof.
move=> h; split; first by exists p, (seg_at e0 e1 1); split=> //; exists 1; rewrite lexx ler01.
move=> x y <- [s [/andP [s0 s1] ->]]; rewrite !pe_quad; have := a_ge0 => a0.
have : 0 <= a * ((1 - s) * (1 - s)) by rewrite mulr_ge0 // -expr2 sqr_ge0.
have : 0 <= (g - a) * (1 - s) by rewrite mulr_ge0 //; lra.
lra.
Qed.
Lemma pe_least2 (r : T) : 0 < a -> 0 <= g -> g <= a -> r * a = q * a - g * g ->
  least_dist2 n (eq p) (on_seg e0 e1) r.
Proof.
move=> ap g0 ga E.
have qa : g / a * a = g by rewrite divfK // (gt_eqF ap).
have Er : r = dist2 n p (seg_at e0 e1 (g / a)).
  apply: (mulIf (negbT (gt_eqF ap))); rewrite E pe_quad.
  have -> : (a * (g / a) * (g / a) - 2%:R * g * (g / a) + q) * a
    = (g / a * a) * (g / a * a) - 2%:R * g * (g / a * a) + q * a by fld; apply/eqP; rewrite (gt_eqF ap).
  by rewrite qa; fld.
split.
  exists p, (seg_at e0 e1 (g / a)); split=> //; exists (g / a); split=> //.
  by rewrite divr_ge0 //= ?ler_pdivr_mulr ?mul1r // ltW.
move=> x y <- [s [/andP [s0 s1] ->]]; rewrite Er !pe_quad.
have : 0 <= a * ((s - g / a) * (s - g / a)) by apply: mulr_ge0; [exact: ltW | rewrite -expr2 sqr_ge0].
have : g * (g / a) = a * (g / a) * (g / a) by rewrite [a * _]mulrC qa.
have : g * s = a * (g / a) * s by rewrite [a * _]mulrC qa.
lra.
Qed.
(* the line *)
Lemma pe_line (s r : T) : a * s = g -> 0 < a -> r * a = q * a - g * g -> r = dist2 n p (seg_at e0 e1 s).
Proof.
move=> E ap Er; apply: (mulIf (negbT (gt_eqF ap))); rewrite Er pe_quad.
have -> : (a * s * s - 2%:R * g * s + q) * a = (a * s) * (a * s) - 2%:R * g * (a * s) + q * a by fld.
by rewrite E; fld.
Qed.
End Seg.

(* the numerators *)
Lemma num3 (p e0 e1 : vec) :
  l2NormSqr 3 (cross3 (vsub e0 p) (vsub e1 p)) =
  sdot 3 (vsub p e0) (vsub p e0) * sdot 3 (vsub e1 e0) (vsub e1 e0)
  - sdot 3 (vsub e1 e0) (vsub p e0) * sdot 3 (vsub e1 e0) (vsub p e0).
Proof. by rewrite l2E !sdot3 !crossE /vsub; fld. Qed.
Lemma num2 (p e0 e1 : vec) :
  pe2_numerator p e0 e1 * pe2_numerator p e0 e1 =
  sdot 2 (vsub p e0) (vsub p e0) * sdot 2 (vsub e1 e0) (vsub e1 e0)
  - sdot 2 (vsub e1 e0) (vsub p e0) * sdot 2 (vsub e1 e0) (vsub p e0).
Proof. by rewrite !sdot2 /pe2_numerator /vsub; fld. Qed.

Lemma quo_mul (x y : T) : 0 < y -> exists r, quo x y = Some r /\ r * y = x.
Proof. exact: quo_ok. Qed.

Lemma pe_unclassified (top : T) (n : nat) (p e0 e1 : vec) : n = 2%N \/ n = 3%N -> proper_seg n e0 e1 ->
  exists2 r, dist2_pe_unclassified top n p e0 e1 = Some r & least_dist2 n (eq p) (on_seg e0 e1) r.
Proof.
move=> n23 pr.
have ap : 0 < sdot n (vsub e1 e0) (vsub e1 e0) by apply: proper_c.
rewrite /dist2_pe_unclassified /pe_distance_type dotE l2E.
have [i [-> Ei]] := quo_mul (sdot n (vsub e1 e0) (vsub p e0)) ap => /=.
case: ltrP => h1.
  exists (dist2_pp n p e0) => //; rewrite (pp_at0 n p e0 e1); apply: pe_least0.
  by rewrite -Ei nmulr_rle0 // ltW.
case: ltrP => h2.
  exists (dist2_pp n p e1) => //; rewrite (pp_at1 n p e0 e1); apply: pe_least1.
  by rewrite -Ei ler_pmull // ltW.
have k0 : 0 <= sdot n (vsub e1 e0) (vsub p e0) by rewrite -Ei mulr_ge0 // ltW.
have k1 : sdot n (vsub e1 e0) (vsub p e0) <= sdot n (vsub e1 e0) (vsub e1 e0) by rewrite -Ei ler_pimull // ltW.
case: n23 => nE; subst n.
  rewrite num2 l2E; have [r [-> Er]] := quo_mul (sdot 2 (vsub p e0) (vsub p e0) * sdot 2 (vsub e1 e0) (vsub e1 e0)
    - sdot 2 (vsub e1 e0) (vsub p e0) * sdot 2 (vsub e1 e0) (vsub p e0)) ap.
  by exists r => //; apply: pe_least2.
rewrite num3 l2E; have [r [-> Er]] := quo_mul (sdot 3 (vsub p e0) (vsub p e0) * sdot 3 (vsub e1 e0) (vsub e1 e0)
  - sdot 3 (vsub e1 e0) (vsub p e0) * sdot 3 (vsub e1 e0) (vsub p e0)) ap.
by exists r => //; apply: pe_least2.
Qed.
(* a segment of length 0 *)
Lemma improper_eq (n : nat) (e0 e1 : vec) : ~ proper_seg n e0 e1 -> sdot n (vsub e1 e0) (vsub e1 e0) = 0.
Proof.
move=> np; apply: big1 => i _; rewrite /vsub.
case: (altP (e0 i =P e1 i)) => [->|/eqP ne]; first by rewrite subrr mulr0.
by case: np; exists i.
Qed.
Lemma pe_degenerate (top : T) (n : nat) (p e0 e1 : vec) : n = 2%N \/ n = 3%N -> ~ proper_seg n e0 e1 ->
  dist2_pe_unclassified top n p e0 e1 = None.
Proof.
move=> n23 /improper_eq z; rewrite /dist2_pe_unclassified /pe_distance_type dotE l2E z /quo eqxx /=.
by case: n23 => E; subst n; rewrite l2E z eqxx.
Qed.
(* dist2_pe in one dimension *)
Lemma pe1 (p e0 e1 : vec) : exists2 r, dist2_pe 1 p e0 e1 = Some r & least_dist2 1 (eq p) (on_seg e0 e1) r.
Proof.
have a0 := a_ge0 1 e0 e1.
rewrite /dist2_pe; eexists; first reflexivity.
rewrite /zmin.
case: ifP => h.
  have ap : 0 < sdot 1 (vsub e1 e0) (vsub e1 e0).
    rewrite lt_neqAle a0 andbT; apply/eqP => /esym z.
    have /eqP := sdot_eq0 z (ltn0Sn 0); rewrite /vsub subr_eq0 => /eqP E.
    by move: h; rewrite E -expr2 ltNge sqr_ge0.
  apply: pe_least2 => //; rewrite !sdot1 /vsub; [| | by fld];
    move: h; clear; move: (p 0%N) (e0 0%N) (e1 0%N) => x y z h;
    have := sqr_ge0 (x - y); have := sqr_ge0 (x - z); nra.
have E0 : (p 0%N - e0 0%N) * (p 0%N - e0 0%N) = dist2 1 p (seg_at e0 e1 0).
  by rewrite pe_quad !sdot1 /vsub; fld.
have E1 : (p 0%N - e1 0%N) * (p 0%N - e1 0%N) = dist2 1 p (seg_at e0 e1 1).
  by rewrite pe_quad !sdot1 /vsub; fld.
case: ifP => k.
- rewrite E1; apply: pe_least1; rewrite !sdot1 /vsub.
  by move: h k; move: (p 0%N) (e0 0%N) (e1 0%N) => x y z h k; nra.
- rewrite E0; apply: pe_least0; rewrite !sdot1 /vsub.
  by move: h k; move: (p 0%N) (e0 0%N) (e1 0%N) => x y z h k; nra.
Qed.
End Pe.
