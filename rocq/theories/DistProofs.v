(* The closest point of a triangle: the optimality conditions. *)
From mathcomp Require Import all_ssreflect all_algebra.
From Coq Require Import Field.
From Verif Require Import FieldTac NraTac MatModel DistModel DistSpec.
Set Implicit Arguments.
Unset Strict Implicit.
Unset Printing Implicit Defensive.
Import Order.TTheory GRing.Theory Num.Theory.
Local Open Scope ring_scope.

Section Scalar.
Variable T : realFieldType.
Let F : fieldType := [fieldType of T].
Add Field ffd : (cfield F).
Ltac fld := to_fld F; field.
Ltac nra := fnra_ T.
Ltac lra := flra_ T.

Lemma quo_ok (x y : T) : 0 < y -> exists q, quo x y = Some q /\ q * y = x.
Proof.
move=> y0; exists (x / y); rewrite /quo; split; first by case: eqP y0 => // ->; rewrite ltxx.
by rewrite divfK // (gt_eqF y0).
Qed.

(* where the closest point lies *)
Definition st_feature (a00 a01 a11 b0 b1 : T) (f : nat) (s t : T) : Prop :=
  match f with
  | 0 => s = 0 /\ t = 0
  | 1 => s = 1 /\ t = 0
  | 2 => s = 0 /\ t = 1
  | 3 => 0 < s < 1 /\ t = 0
  | 4 => 0 < s < 1 /\ t = 1 - s
  | 5 => 0 < t < 1 /\ s = 0
  | 6 => [/\ 0 <= s, 0 <= t, s + t <= 1, a00 * s + a01 * t + b0 = 0 & a01 * s + a11 * t + b1 = 0]
  | _ => False
  end.
(* no direction into the triangle decreases the distance *)
Definition kkt (a00 a01 a11 b0 b1 s t : T) : Prop :=
  let gs := a00 * s + a01 * t + b0 in
  let gt := a01 * s + a11 * t + b1 in
  let m := gs * s + gt * t in
  [/\ m <= 0, m <= gs & m <= gt].

Lemma corner (a00 a01 a11 x y : T) : 0 < a11 -> 0 < a00 * a11 - a01 * a01 -> 0 < x -> x <= y ->
  a11 * y <= a01 * x -> x * (a00 - a01) < y * (a01 - a11) -> False.
Proof.
move=> p11 pd x0 xy h1 h2.
have h : a11 <= a01 by rewrite -(ler_pmul2r x0); apply: le_trans h1; rewrite ler_pmul2l.
have k1 : a11 * y * (a01 - a11) <= a01 * x * (a01 - a11) by apply: ler_wpmul2r => //; rewrite subr_ge0.
have k2 : a11 * (x * (a00 - a01)) < a11 * (y * (a01 - a11)) by rewrite ltr_pmul2l.
have k3 : 0 < x * (a00 * a11 - a01 * a01) by apply: mulr_gt0.
lra.
Qed.

Lemma edge_end (a00 a01 a11 x y : T) : 0 < a11 -> 0 < a00 * a11 - a01 * a01 ->
  0 < a00 - (a01 + a01) + a11 -> 0 <= x -> y <= x -> a01 * x <= a11 * y -> 0 <= x * (a00 - a01) + y * (a11 - a01).
Proof.
move=> p11 pd pe x0 yx h.
case: (lerP a01 a11) => c.
  have k1 : a01 * x * (a11 - a01) <= a11 * y * (a11 - a01) by apply: ler_wpmul2r => //; rewrite subr_ge0.
  have k3 : 0 <= x * (a00 * a11 - a01 * a01) by apply: mulr_ge0 => //; exact: ltW.
  rewrite -(pmulr_rge0 _ p11); lra.
have k1 : y * (a01 - a11) <= x * (a01 - a11) by apply: ler_wpmul2r => //; rewrite subr_ge0 ltW.
have k3 : 0 <= x * (a00 - (a01 + a01) + a11) by apply: mulr_ge0 => //; exact: ltW.
lra.
Qed.

Lemma pt_category_kkt (a00 a01 a11 b0 b1 : T) :
  0 < a00 -> 0 < a11 -> 0 < a00 * a11 - a01 * a01 -> 0 < a00 - (a01 + a01) + a11 ->
  exists c s t, [/\ pt_category a00 a01 a11 b0 b1 = Some (c, s, t),
    st_feature a00 a01 a11 b0 b1 c s t & kkt a00 a01 a11 b0 b1 s t].
Proof.
move=> p00 p11 pd pe; rewrite /pt_category /kkt.
have -> : zmax (a00 * a11 - a01 * a01) 0 = a00 * a11 - a01 * a01 by rewrite /zmax ltNge (ltW pd).

have E1 : a00 * (a01 * b1 - a11 * b0) + a01 * (a01 * b0 - a00 * b1) = - (a00 * a11 - a01 * a01) * b0 by fld.
have E2 : a01 * (a01 * b1 - a11 * b0) + a11 * (a01 * b0 - a00 * b1) = - (a00 * a11 - a01 * a01) * b1 by fld.
have [q3 [Q3 e3]] := quo_ok (- b0) p00.
have [q5 [Q5 e5]] := quo_ok (- b1) p11.
have [q4 [Q4 e4]] := quo_ok (a11 + b1 - (a01 + b0)) pe.
have [q4' [Q4' e4']] := quo_ok (a00 + b0 - (a01 + b1)) pe.
have [qs [Qs es]] := quo_ok (a01 * b1 - a11 * b0) pd.
have [qt [Qt et]] := quo_ok (a01 * b0 - a00 * b1) pd.
have q44 : q4 = 1 - q4' by nra.
have [Q4'' _] := quo_ok (a11 + b1 - a01 - b0) pe.
case: ifP => h1.
- case: ifP => h2.
  + case: ifP => h3.
    * case: ifP => h4.
      -- case: ifP => h5.
         ++ exists 1%N, 1, 0; split=> //=.
            have ? : a01 < 0 by nra.
            have ? : 0 < b1 + a01 by nra.
            by split; lra.
         ++ rewrite Q3 /=; exists 3%N, q3, 0; split=> //=; first by split=> //; apply/andP; split; nra.
            by split; nra.
      -- case: ifP => h6; last case: ifP => h7.
         ++ exists 0%N, 0, 0; split=> //=; split; nra.
         ++ exists 2%N, 0, 1; split=> //=; split; nra.
         ++ rewrite Q5 /=; exists 5%N, 0, q5; split=> //=; first by split=> //; apply/andP; split; nra.
            by split; nra.
    * case: ifP => h6; last case: ifP => h7.
      -- have ? : 0 <= a01 by nra.
         have ? : 0 <= b0 by nra.
         by exists 0%N, 0, 0; split=> //=; split; lra.
      -- have K : 0 <= - (a01 * b1 - a11 * b0) * (a00 - a01)
             + (a01 * b0 - a00 * b1 - (a00 * a11 - a01 * a01)) * (a11 - a01).
           by apply: edge_end; nra.
         have {}K : 0 <= (a00 * a11 - a01 * a01) * (a01 + b0 - (a11 + b1)) by lra.
         rewrite pmulr_rge0 // in K.
         by exists 2%N, 0, 1; split=> //=; split; lra.
      -- rewrite Q5 /=; exists 5%N, 0, q5; split=> //=; first by split=> //; apply/andP; split; nra.
         by split; nra.
  + case: ifP => h3.
    * case: ifP => h6; last case: ifP => h7.
      -- have ? : 0 <= a01 by nra.
         have ? : 0 <= b1 by nra.
         by exists 0%N, 0, 0; split=> //=; split; lra.
      -- have K : 0 <= - (a01 * b0 - a00 * b1) * (a11 - a01)
             + (a01 * b1 - a11 * b0 - (a00 * a11 - a01 * a01)) * (a00 - a01).
           by apply: edge_end; nra.
         have {}K : 0 <= (a00 * a11 - a01 * a01) * (a01 + b1 - (a00 + b0)) by lra.
         rewrite pmulr_rge0 // in K.
         by exists 1%N, 1, 0; split=> //=; split; lra.
      -- rewrite Q3 /=; exists 3%N, q3, 0; split=> //=; first by split=> //; apply/andP; split; nra.
         by split; nra.
    * rewrite Qs Qt /=; exists 6%N, qs, qt.
      have g1 : a00 * qs + a01 * qt + b0 = 0.
        apply: (mulIf (negbT (gt_eqF pd))); rewrite mul0r.
        have -> : (a00 * qs + a01 * qt + b0) * (a00 * a11 - a01 * a01)
          = a00 * (qs * (a00 * a11 - a01 * a01)) + a01 * (qt * (a00 * a11 - a01 * a01))
            + b0 * (a00 * a11 - a01 * a01) by fld.
        by rewrite es et; fld.
      have g2 : a01 * qs + a11 * qt + b1 = 0.
        apply: (mulIf (negbT (gt_eqF pd))); rewrite mul0r.
        have -> : (a01 * qs + a11 * qt + b1) * (a00 * a11 - a01 * a01)
          = a01 * (qs * (a00 * a11 - a01 * a01)) + a11 * (qt * (a00 * a11 - a01 * a01))
            + b1 * (a00 * a11 - a01 * a01) by fld.
        by rewrite es et; fld.
      split=> //=; first by split=> //; nra.
      by rewrite g1 g2 !mul0r addr0.
- case: ifP => h2.
  + case: ifP => h3.
    * case: ifP => h4.
      -- have ? : a00 + b0 <= 0.
           rewrite leNgt; apply/negP => g0.
           by apply: (@corner a11 a01 a00 (a00 + b0) (a01 + b1)); lra.
         by exists 1%N, 1, 0; split=> //=; split; lra.
      -- rewrite Q4 /=; exists 4%N, q4, (1 - q4); split=> //=; first by split=> //; apply/andP; split; nra.
         by split; nra.
    * case: ifP => h6; last case: ifP => h7.
      -- exists 2%N, 0, 1; split=> //=; split; nra.
      -- exists 0%N, 0, 0; split=> //=; split; nra.
      -- rewrite Q5 /=; exists 5%N, 0, q5; split=> //=; first by split=> //; apply/andP; split; nra.
         by split; nra.
  + case: ifP => h3.
    * case: ifP => h4.
      -- case: ifP => h5.
         ++ have ? : a11 + b1 <= 0.
              rewrite leNgt; apply/negP => g0.
              by apply: (@corner a00 a01 a11 (a11 + b1) (a01 + b0)); lra.
            by exists 2%N, 0, 1; split=> //=; split; lra.
         ++ rewrite Q4' /=; exists 4%N, (1 - q4'), q4'; split=> //=; first by split; [apply/andP; split; nra | nra].
            by split; nra.
      -- case: ifP => h6; last case: ifP => h7.
         ++ exists 1%N, 1, 0; split=> //=; split; nra.
         ++ exists 0%N, 0, 0; split=> //=; split; nra.
         ++ rewrite Q3 /=; exists 3%N, q3, 0; split=> //=; first by split=> //; apply/andP; split; nra.
            by split; nra.
    * case: ifP => h6; last case: ifP => h7.
      -- have ? : a11 + b1 <= 0.
           rewrite leNgt; apply/negP => g0.
           by apply: (@corner a00 a01 a11 (a11 + b1) (a01 + b0)); lra.
         by exists 2%N, 0, 1; split=> //=; split; lra.
      -- have ? : a00 + b0 <= 0.
           rewrite leNgt; apply/negP => g0.
           by apply: (@corner a11 a01 a00 (a00 + b0) (a01 + b1)); lra.
         by exists 1%N, 1, 0; split=> //=; split; lra.
      -- have -> : a11 + b1 - a01 - b0 = a11 + b1 - (a01 + b0) by fld.
         rewrite Q4 /=; exists 4%N, q4, (1 - q4); split=> //=; first by split=> //; apply/andP; split; nra.
         by split; nra.
Qed.
End Scalar.
