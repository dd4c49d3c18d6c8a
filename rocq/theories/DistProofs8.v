(* dist2_ee_unclassified and et_intersected. *)
From mathcomp Require Import all_ssreflect all_algebra.
From Coq Require Import Field.
From Verif Require Import FieldTac NraTac MatModel DistModel DistSpec DistProofs DistProofs2 DistProofs3 DistProofs4 DistProofs5 DistProofs6 DistProofs7.
Set Implicit Arguments.
Unset Strict Implicit.
Unset Printing Implicit Defensive.
Import Order.TTheory GRing.Theory Num.Theory.
Local Open Scope ring_scope.

Section Ee.
Variable T : realFieldType.
Let F : fieldType := [fieldType of T].
Add Field ffd : (cfield F).
Ltac fld := to_fld F; field.
Ltac nra := fnra_ T.
Ltac lra := flra_ T.
Notation vec := (nat -> T).
Notation sdot := (sdot 3).

Section Pair.
Variables ea0 ea1 eb0 eb1 : vec.
Let u := vsub ea1 ea0.
Let v := vsub eb1 eb0.
Let w := vsub ea0 eb0.
Let a := sdot u u.
Let b := sdot u v.
Let c := sdot v v.
Let d := sdot u w.
Let e := sdot v w.
Let D := a * c - b * b.
Notation A := (seg_at ea0 ea1).
Notation B := (seg_at eb0 eb1).

Lemma pp_AB (x y : vec) (s t : T) : (forall i, x i = A s i) -> (forall i, y i = B t i) -> dist2_pp 3 x y = dist2 3 (A s) (B t).
Proof. by move=> h k; rewrite /dist2_pp l2E dist2E; apply: eq_bigr => i _; rewrite /vsub h k; fld. Qed.
(* an end point of the first segment and the line of the second *)
Lemma pe_AB (x : vec) (s t : T) : (forall i, x i = A s i) -> 0 < c -> c * t - b * s - e = 0 ->
  dist2_pe 3 x eb0 eb1 = Some (dist2 3 (A s) (B t)).
Proof.
move=> h cp g; rewrite (@pe3_at _ x eb0 eb1 t) //; first by congr Some; apply: eq_bigr => i _; rewrite h.
have -> : sdot (vsub eb1 eb0) (vsub x eb0) = e + b * s.
  by rewrite /e /b !sdot3 /w /u /v /vsub !h /seg_at; fld.
by rewrite -/v -/c; lra.
Qed.
Lemma pe_BA (x : vec) (s t : T) : (forall i, x i = B t i) -> 0 < a -> a * s - b * t + d = 0 ->
  dist2_pe 3 x ea0 ea1 = Some (dist2 3 (A s) (B t)).
Proof.
move=> h ap g; rewrite (@pe3_at _ x ea0 ea1 s) //.
  by congr Some; rewrite dist2C; apply: eq_bigr => i _; rewrite h.
have -> : sdot (vsub ea1 ea0) (vsub x ea0) = b * t - d.
  by rewrite /d /b !sdot3 /w /u /v /vsub !h /seg_at; fld.
by rewrite -/u -/a; lra.
Qed.
Lemma crossD : l2NormSqr 3 (cross3 u v) = D.
Proof. by rewrite l2E lagrange. Qed.
Lemma ee_AB (s t : T) : 0 < D -> a * s - b * t + d = 0 -> c * t - b * s - e = 0 ->
  dist2_ee ea0 ea1 eb0 eb1 = Some (dist2 3 (A s) (B t)).
Proof.
move=> pD g1 g2; rewrite /dist2_ee -/u -/v crossD dotE.
have [r [-> Er]] := quo_ok (sdot (vsub eb0 ea0) (cross3 u v) * sdot (vsub eb0 ea0) (cross3 u v)) pD; congr Some.
apply: (mulIf (negbT (gt_eqF pD))); rewrite Er seg_quad -/u -/v -/w -/a -/b -/c -/d -/e.
have sE : s * D = b * e - c * d.
  have : s * D = c * (a * s - b * t + d) + b * (c * t - b * s - e) + (b * e - c * d) by rewrite /D; fld.
  by rewrite g1 g2 !mulr0 addr0 add0r.
have tE : t * D = a * e - b * d.
  have : t * D = b * (a * s - b * t + d) + a * (c * t - b * s - e) + (a * e - b * d) by rewrite /D; fld.
  by rewrite g1 g2 !mulr0 addr0 add0r.
have -> : (a * s * s - 2%:R * b * s * t + c * t * t + 2%:R * d * s - 2%:R * e * t + sdot w w) * D
  = (s * (a * s - b * t + d) + t * (c * t - b * s - e)) * D + d * (s * D) - e * (t * D) + sdot w w * D by fld.
rewrite g1 g2 sE tE !mulr0 addr0 mul0r add0r.
have -> : sdot (vsub eb0 ea0) (cross3 u v) = - sdot w (cross3 u v) by rewrite !sdot3 /w /vsub; fld.
rewrite /D /a /b /c /d /e !sdot3 !crossE.
move: (u 0%N) (u 1%N) (u 2%N) (v 0%N) (v 1%N) (v 2%N) (w 0%N) (w 1%N) (w 2%N) => *.
by fld.
Qed.

Lemma least_ee (s t : T) : in01 s -> in01 t -> bkkt a b c d e s t ->
  least_dist2 3 (on_seg ea0 ea1) (on_seg eb0 eb1) (dist2 3 (A s) (B t)).
Proof. exact: least_of. Qed.

Variables (tiny top : T).
Hypothesis disj : forall x y, on_seg ea0 ea1 x -> on_seg eb0 eb1 y -> dist2 3 x y <> 0.
Hypothesis npar : D = 0 \/ tiny * a * c <= D.

Definition result : Prop := exists2 r, dist2_ee_unclassified tiny top ea0 ea1 eb0 eb1 = Some r &
  least_dist2 3 (on_seg ea0 ea1) (on_seg eb0 eb1) r.

Let o0 : in01 (0 : T). Proof. by split; lra. Qed.
Let o1 : in01 (1 : T). Proof. by split; lra. Qed.

Definition by_type (k : nat) : option T :=
  match k with
  | 0 => Some (dist2_pp 3 ea0 eb0)
  | 1 => Some (dist2_pp 3 ea0 eb1)
  | 2 => dist2_pe 3 ea0 eb0 eb1
  | 3 => Some (dist2_pp 3 ea1 eb0)
  | 4 => Some (dist2_pp 3 ea1 eb1)
  | 5 => dist2_pe 3 ea1 eb0 eb1
  | 6 => dist2_pe 3 eb0 ea0 ea1
  | 7 => dist2_pe 3 eb1 ea0 ea1
  | 8 => dist2_ee ea0 ea1 eb0 eb1
  | _ => Some top
  end.
Definition good (k : nat) : Prop :=
  exists2 r, by_type k = Some r & least_dist2 3 (on_seg ea0 ea1) (on_seg eb0 eb1) r.
Lemma A0 i : ea0 i = A 0 i. Proof. by rewrite /seg_at; fld. Qed.
Lemma A1 i : ea1 i = A 1 i. Proof. by rewrite /seg_at; fld. Qed.
Lemma B0 i : eb0 i = B 0 i. Proof. by rewrite /seg_at; fld. Qed.
Lemma B1 i : eb1 i = B 1 i. Proof. by rewrite /seg_at; fld. Qed.

Lemma good0 : bkkt a b c d e 0 0 -> good 0.
Proof. by move=> k; exists (dist2 3 (A 0) (B 0)); [rewrite /by_type (pp_AB A0 B0) | apply: least_ee]. Qed.
Lemma good1 : bkkt a b c d e 0 1 -> good 1.
Proof. by move=> k; exists (dist2 3 (A 0) (B 1)); [rewrite /by_type (pp_AB A0 B1) | apply: least_ee]. Qed.
Lemma good3 : bkkt a b c d e 1 0 -> good 3.
Proof. by move=> k; exists (dist2 3 (A 1) (B 0)); [rewrite /by_type (pp_AB A1 B0) | apply: least_ee]. Qed.
Lemma good4 : bkkt a b c d e 1 1 -> good 4.
Proof. by move=> k; exists (dist2 3 (A 1) (B 1)); [rewrite /by_type (pp_AB A1 B1) | apply: least_ee]. Qed.
Lemma good2 (t : T) : 0 < c -> t * c = e -> in01 t -> bkkt a b c d e 0 t -> good 2.
Proof. by move=> cp g i k; exists (dist2 3 (A 0) (B t)); [rewrite /by_type (@pe_AB _ 0 t A0 cp) //; lra | apply: least_ee]. Qed.
Lemma good5 (t : T) : 0 < c -> t * c = e + b -> in01 t -> bkkt a b c d e 1 t -> good 5.
Proof. by move=> cp g i k; exists (dist2 3 (A 1) (B t)); [rewrite /by_type (@pe_AB _ 1 t A1 cp) //; lra | apply: least_ee]. Qed.
Lemma good6 (s : T) : 0 < a -> s * a = - d -> in01 s -> bkkt a b c d e s 0 -> good 6.
Proof. by move=> ap g i k; exists (dist2 3 (A s) (B 0)); [rewrite /by_type (@pe_BA _ s 0 B0 ap) //; lra | apply: least_ee]. Qed.
Lemma good7 (s : T) : 0 < a -> s * a = - d + b -> in01 s -> bkkt a b c d e s 1 -> good 7.
Proof. by move=> ap g i k; exists (dist2 3 (A s) (B 1)); [rewrite /by_type (@pe_BA _ s 1 B1 ap) //; lra | apply: least_ee]. Qed.

Let a0 := seg_a0 3 ea0 ea1.
Let c0 := seg_c0 3 eb0 eb1.
Let D0 := seg_D0 3 ea0 ea1 eb0 eb1.
Let par := @seg_par _ 3 ea0 ea1 eb0 eb1.

(* t = 0: s is -d / a clamped *)
Lemma low_type : (- d < 0 -> bkkt a b c d e 0 0) ->
  (- d > a -> bkkt a b c d e 1 0) ->
  (forall q, 0 <= - d <= a -> q * a = - d -> (0 < a \/ q = 0 /\ - d = 0 /\ a = 0) -> in01 q /\ bkkt a b c d e q 0) ->
  good (if - d <= 0 then 0%N else if - d >= a then 3%N else 6%N).
Proof.
move=> l0 l1 l2; have a0' : 0 <= a := a0.
case: ifP => h1.
  apply: good0; case: (ltrP (- d) 0) => h; first exact: l0.
  have dz : - d = 0 by lra.
  have i : 0 <= - d <= a by rewrite dz lexx.
  have j : 0 * a = - d by rewrite mul0r dz.
  have k : 0 < a \/ (0 : T) = 0 /\ - d = 0 /\ a = 0.
    by case: (ltrP 0 a) => h'; [left | right; split=> //; split=> //; lra].
  by have [] := l2 0 i j k.
have dp : 0 < - d by lra.
case: ifP => h2.
  apply: good3; case: (ltrP a (- d)) => h; first exact: l1.
  have dz : - d = a by lra.
  have ap : 0 < a by rewrite -dz.
  have i : 0 <= - d <= a by rewrite dz lexx ltW.
  have j : 1 * a = - d by rewrite mul1r dz.
  by have [] := l2 1 i j (or_introl ap).
have ap : 0 < a by lra.
have [q [_ qE]] := quo_ok (- d) ap.
have [|i k] := l2 q _ qE (or_introl ap); first by apply/andP; split; lra.
exact: good6 ap qE i k.
Qed.
Lemma up_type : (- d + b < 0 -> bkkt a b c d e 0 1) ->
  (- d + b > a -> bkkt a b c d e 1 1) ->
  (forall q, 0 <= - d + b <= a -> q * a = - d + b -> (0 < a \/ q = 0 /\ - d + b = 0 /\ a = 0) -> in01 q /\ bkkt a b c d e q 1) ->
  good (if - d + b <= 0 then 1%N else if - d + b >= a then 4%N else 7%N).
Proof.
move=> l0 l1 l2; have a0' : 0 <= a := a0.
case: ifP => h1.
  apply: good1; case: (ltrP (- d + b) 0) => h; first exact: l0.
  have dz : - d + b = 0 by lra.
  have i : 0 <= - d + b <= a by rewrite dz lexx.
  have j : 0 * a = - d + b by rewrite mul0r dz.
  have k : 0 < a \/ (0 : T) = 0 /\ - d + b = 0 /\ a = 0.
    by case: (ltrP 0 a) => h'; [left | right; split=> //; split=> //; lra].
  by have [] := l2 0 i j k.
have dp : 0 < - d + b by lra.
case: ifP => h2.
  apply: good4; case: (ltrP a (- d + b)) => h; first exact: l1.
  have dz : - d + b = a by lra.
  have ap : 0 < a by rewrite -dz.
  have i : 0 <= - d + b <= a by rewrite dz lexx ltW.
  have j : 1 * a = - d + b by rewrite mul1r dz.
  by have [] := l2 1 i j (or_introl ap).
have ap : 0 < a by lra.
have [q [_ qE]] := quo_ok (- d + b) ap.
have [|i k] := l2 q _ qE (or_introl ap); first by apply/andP; split; lra.
exact: good7 ap qE i k.
Qed.

Lemma ee_unclassified : result.
Proof.
rewrite /result /dist2_ee_unclassified.
suff : good (ee_distance_type tiny ea0 ea1 eb0 eb1) by [].
rewrite /ee_distance_type !dotE !l2E -/u -/v -/w -/a -/b -/c -/d -/e -/D.
have a0' : 0 <= a := a0. have c0' : 0 <= c := c0. have D0' : 0 <= D := D0.
have weak (P Q : Prop) : (forall q, P -> q * a = - d -> Q) -> forall q, P -> q * a = - d -> (0 < a \/ q = 0 /\ - d = 0 /\ a = 0) -> Q.
  by move=> h q p e1 _; apply: h p e1.
case: ifP => h1.
  case: (ltrP 0 D) => Dp.
    case: ifP => h2.
      have [l0 [l1 l2]] := low_2 a0 c0 D0 Dp h1 h2.
      by apply: low_type => // q h h' _; apply: l2.
    case: ifP => h3.
      have [l0 [l1 l2]] := up_2 a0 c0 D0 Dp h1 h3.
      by apply: up_type => // q h h' _; apply: l2.
    have cp : 0 < c by lra.
    have [q [_ qE]] := quo_ok e cp.
    have hh : 0 <= e <= c by apply/andP; split; lra.
    have [i k] := mid_2 a0 c0 D0 Dp h1 qE hh.
    exact: good2 cp qE i k.
  have z : D = 0 by lra.
  case: ifP => h2.
    have [l0 [l1 l2]] := low_1 a0 c0 D0 par z h2.
    exact: low_type.
  case: ifP => h3.
    have [l0 [l1 l2]] := up_1 a0 c0 D0 par z h3.
    exact: up_type.
  have cp : 0 < c by lra.
  have [q [_ qE]] := quo_ok e cp.
  have hh : 0 <= e <= c by apply/andP; split; lra.
    have [i k] := mid_1 a0 c0 D0 par z cp qE hh.
  exact: good2 cp qE i k.
have h1' : 0 < b * e - c * d by lra.
have Dp : 0 < D.
  case: (ltrP 0 D) => // h; have z : D = 0 by lra.
  by have [k _] := par z; move: h1'; rewrite -/b -/e -/c -/d in k; rewrite k subrr ltxx.
case: ifP => h2.
  case: ifP => h3.
    have [l0 [l1 l2]] := low_3 a0 c0 D0 Dp h2 h3.
    by apply: low_type => // q h h' _; apply: l2.
  case: ifP => h4.
    have [l0 [l1 l2]] := up_3 a0 c0 D0 Dp h2 h4.
    by apply: up_type => // q h h' _; apply: l2.
  have cp : 0 < c by lra.
  have [q [_ qE]] := quo_ok (e + b) cp.
  have hh : 0 <= e + b <= c by apply/andP; split; lra.
    have [i k] := mid_3 a0 c0 D0 Dp h2 qE hh.
  exact: good5 cp qE i k.
have h2' : b * e - c * d <= D by lra.
have [qs [_ sE]] := quo_ok (b * e - c * d) Dp.
have [qt [_ tE]] := quo_ok (a * e - b * d) Dp.
have hs : 0 <= b * e - c * d <= D by apply/andP; split; lra.
have spec : [&& 0 < a * e - b * d, a * e - b * d < D &
    (dot 3 (cross3 u v) w == 0) || (l2NormSqr 3 (cross3 u v) < tiny * a * c)] = false.
  apply/negP => /and3P [k1 k2 /orP [k|k]].
    have ht : 0 <= a * e - b * d <= D by apply/andP; split; lra.
    have [i j kk g1 g2] := mid_4 a0 c0 D0 Dp sE tE hs ht.
    have E := ee_AB Dp g1 g2.
    apply: (@disj (A qs) (B qt)); [by apply/on_seg01; exists qs | by apply/on_seg01; exists qt |].
    move: E; rewrite /dist2_ee -/u -/v crossD dotE /quo (gt_eqF Dp) => -[<-].
    have -> : sdot (vsub eb0 ea0) (cross3 u v) = - dot 3 (cross3 u v) w by rewrite dotE !sdot3 /w /vsub; fld.
    by rewrite (eqP k) oppr0 !mul0r.
  by case: npar => n; [rewrite n ltxx in Dp | rewrite crossD ltNge n in k].
rewrite dotE l2E in spec; rewrite spec.
case: ifP => h3.
  have [l0 [l1 l2]] := low_4 a0 c0 D0 Dp (ltW h1') h2' h3.
  by apply: low_type => // q h h' _; apply: l2.
case: ifP => h4.
  have [l0 [l1 l2]] := up_4 a0 c0 D0 Dp (ltW h1') h2' h4.
  by apply: up_type => // q h h' _; apply: l2.
have ht : 0 <= a * e - b * d <= D by apply/andP; split; lra.
have [i j kk g1 g2] := mid_4 a0 c0 D0 Dp sE tE hs ht.
by exists (dist2 3 (A qs) (B qt)); [exact: ee_AB | exact: least_ee].
Qed.
End Pair.
End Ee.
