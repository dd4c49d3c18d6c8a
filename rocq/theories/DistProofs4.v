(* dist_ee_sqr and ee_category_and_dist2. *)
From mathcomp Require Import all_ssreflect all_algebra.
From Coq Require Import Field.
From Verif Require Import FieldTac NraTac MatModel DistModel DistSpec DistProofs2 DistProofs3.
Set Implicit Arguments.
Unset Strict Implicit.
Unset Printing Implicit Defensive.
Import Order.TTheory GRing.Theory Num.Theory.
Local Open Scope ring_scope.

Section Scalar.
Variable T : realFieldType.
Let F : fieldType := [fieldType of T].
Add Field ffd : (cfield F).
Ltac fld := to_fld F; field.
Ltac nra := fnra_ T.
Ltac lra := flra_ T.

Section Cond.
Variables eps a b c d e : T.
Hypothesis e0 : 0 < eps.
Hypothesis e1 : eps <= 1.
Hypothesis a0 : 0 <= a.
Hypothesis c0 : 0 <= c.
Hypothesis D0 : 0 <= a * c - b * b.
Hypothesis par : a * c - b * b = 0 -> b * e = c * d /\ a * e = b * d.

(* the numbers the code compares with eps *)
Definition all_clear : Prop :=
  [/\ clear eps (a * c - b * b), clear eps (b * e - c * d), clear eps (a * e - b * d) &
  [/\ clear eps e, clear eps (e + b), clear eps c, clear eps d & clear eps (b - d)]].

Lemma clearN x : clear eps x -> clear eps (- x).
Proof. by case=> [->|h]; [left; rewrite oppr0 | right; rewrite normrN]. Qed.
Lemma self_one x : 0 < x -> clear eps x -> (if `|x| < eps then Some (0 : T) else quo x x) = Some (1 : T).
Proof.
move=> x0 [z|h]; first by rewrite z ltxx in x0.
by rewrite ltNge h /= /quo (gt_eqF x0) divff // (gt_eqF x0).
Qed.
Lemma zero_zero y : (if `|0 : T| < eps then Some (0 : T) else quo 0 y) = Some (0 : T).
Proof. by rewrite normr0 e0. Qed.

(* what a category says *)
Definition cate_ok (k : nat) (s g : T) : Prop :=
  match k with 0 => s = 0 | 1 => s = 1 | 2 => g = 0 | _ => False end.

Lemma one_clear : clear eps 1.
Proof. by right; rewrite normr1. Qed.

Lemma ee_st_ok : all_clear -> 0 < c ->
  exists s t, [/\ ee_st eps a b c d e = Some (s, t), in01 s, in01 t & bkkt a b c d e s t].
Proof.
move=> [kD ks kt [ke keb kc kd kbd]] cp.
have kbd' : clear eps (- d + b) by rewrite addrC.
have kd' := clearN kd.
have o0 : in01 (0 : T) by split; lra.
have o1 : in01 (1 : T) by split; lra.
rewrite /ee_st.
case: ifP => h1.
  have z : a * c - b * b = 0 by case: kD => // h; rewrite ger0_norm // leNgt h1 in h.
  case: ifP => h2.
    have [l0 [l1 l2]] := low_1 a0 c0 D0 par z (ltW h2).
    case: ifP => h3; first by exists 0, 0; rewrite zero_zero /= ?zero_zero; split=> //; apply: l0.
    case: ifP => h4; first by exists 1, 0; rewrite (self_one ltr01 one_clear) /= ?zero_zero; split=> //; apply: l1.
    have [|//|q [-> [qa h]]] := @frac _ eps (- d) a e0 kd'; try lra.
    have hd : 0 <= - d <= a by apply/andP; split; lra.
    have [i k] := l2 q hd qa h.
    by exists q, 0; rewrite /= zero_zero.
  case: ifP => h3.
    have [l0 [l1 l2]] := up_1 a0 c0 D0 par z (ltW h3).
    case: ifP => h4; first by exists 0, 1; rewrite zero_zero /= ?self_one //=; split=> //; apply: l0.
    case: ifP => h5; first by exists 1, 1; rewrite (self_one ltr01 one_clear) /= ?self_one //=; split=> //; apply: l1.
    have [|//|q [-> [qa h]]] := @frac _ eps (- d + b) a e0 kbd'; try lra.
    have hd : 0 <= - d + b <= a by apply/andP; split; lra.
    have [i k] := l2 q hd qa h.
    by exists q, 1; rewrite /= self_one.
  have he : 0 <= e <= c by apply/andP; split; lra.
  have [||q [E [qa _]]] := @frac _ eps e c e0 ke; try lra.
  have [i k] := mid_1 a0 c0 D0 par z cp qa he.
  by exists 0, q; rewrite zero_zero /= E.
have Dp : 0 < a * c - b * b by lra.
have ap : 0 < a by nra.
case: ifP => h2.
  case: ifP => h3.
    have [l0 [l1 l2]] := low_2 a0 c0 D0 Dp (ltW h2) (ltW h3).
    case: ifP => h4; first by exists 0, 0; rewrite zero_zero /= ?zero_zero; split=> //; apply: l0.
    case: ifP => h5; first by exists 1, 0; rewrite self_one //= ?zero_zero; split=> //; apply: l1.
    have [|//|q [-> [qa h]]] := @frac _ eps (- d) a e0 kd'; try lra.
    have hd : 0 <= - d <= a by apply/andP; split; lra.
    have [i k] := l2 q hd qa.
    by exists q, 0; rewrite /= zero_zero.
  case: ifP => h4.
    have [l0 [l1 l2]] := up_2 a0 c0 D0 Dp (ltW h2) (ltW h4).
    case: ifP => h5; first by exists 0, 1; rewrite zero_zero /= ?self_one //=; split=> //; apply: l0.
    case: ifP => h6; first by exists 1, 1; rewrite self_one //= ?self_one //=; split=> //; apply: l1.
    have [|//|q [-> [qa h]]] := @frac _ eps (- d + b) a e0 kbd'; try lra.
    have hd : 0 <= - d + b <= a by apply/andP; split; lra.
    have [i k] := l2 q hd qa.
    by exists q, 1; rewrite /= self_one.
  have he : 0 <= e <= c by apply/andP; split; lra.
  have [||q [E [qa _]]] := @frac _ eps e c e0 ke; try lra.
  have [i k] := mid_2 a0 c0 D0 Dp (ltW h2) qa he.
  by exists 0, q; rewrite zero_zero /= E.
case: ifP => h3.
  case: ifP => h4.
    have [l0 [l1 l2]] := low_3 a0 c0 D0 Dp (ltW h3) (ltW h4).
    case: ifP => h5; first by exists 0, 0; rewrite zero_zero /= ?zero_zero; split=> //; apply: l0.
    case: ifP => h6; first by exists 1, 0; rewrite self_one //= ?zero_zero; split=> //; apply: l1.
    have [|//|q [-> [qa h]]] := @frac _ eps (- d) a e0 kd'; try lra.
    have hd : 0 <= - d <= a by apply/andP; split; lra.
    have [i k] := l2 q hd qa.
    by exists q, 0; rewrite /= zero_zero.
  case: ifP => h5.
    have [l0 [l1 l2]] := up_3 a0 c0 D0 Dp (ltW h3) (ltW h5).
    case: ifP => h6; first by exists 0, 1; rewrite zero_zero /= ?self_one //=; split=> //; apply: l0.
    case: ifP => h7; first by exists 1, 1; rewrite self_one //= ?self_one //=; split=> //; apply: l1.
    have [|//|q [-> [qa h]]] := @frac _ eps (- d + b) a e0 kbd'; try lra.
    have hd : 0 <= - d + b <= a by apply/andP; split; lra.
    have [i k] := l2 q hd qa.
    by exists q, 1; rewrite /= self_one.
  have he : 0 <= e + b <= c by apply/andP; split; lra.
  have [||q [E [qa _]]] := @frac _ eps (e + b) c e0 keb; try lra.
  have [i k] := mid_3 a0 c0 D0 Dp (ltW h3) qa he.
  by exists 1, q; rewrite self_one //= E.
have h2' : 0 <= b * e - c * d by lra.
have h3' : b * e - c * d <= a * c - b * b by lra.
case: ifP => h4.
  have [l0 [l1 l2]] := low_4 a0 c0 D0 Dp h2' h3' (ltW h4).
  case: ifP => h5; first by exists 0, 0; rewrite zero_zero /= ?zero_zero; split=> //; apply: l0.
  case: ifP => h6; first by exists 1, 0; rewrite self_one //= ?zero_zero; split=> //; apply: l1.
  have [|//|q [-> [qa h]]] := @frac _ eps (- d) a e0 kd'; try lra.
  have hd : 0 <= - d <= a by apply/andP; split; lra.
  have [i k] := l2 q hd qa.
  by exists q, 0; rewrite /= zero_zero.
case: ifP => h5.
  have [l0 [l1 l2]] := up_4 a0 c0 D0 Dp h2' h3' (ltW h5).
  case: ifP => h6; first by exists 0, 1; rewrite zero_zero /= ?self_one //=; split=> //; apply: l0.
  case: ifP => h7; first by exists 1, 1; rewrite self_one //= ?self_one //=; split=> //; apply: l1.
  have [|//|q [-> [qa h]]] := @frac _ eps (- d + b) a e0 kbd'; try lra.
  have hd : 0 <= - d + b <= a by apply/andP; split; lra.
  have [i k] := l2 q hd qa.
  by exists q, 1; rewrite /= self_one.
have hs : 0 <= b * e - c * d <= a * c - b * b by apply/andP; split; lra.
have ht : 0 <= a * e - b * d <= a * c - b * b by apply/andP; split; lra.
have [||q [E [qa _]]] := @frac _ eps (b * e - c * d) (a * c - b * b) e0 ks; try lra.
have [||q' [E' [qa' _]]] := @frac _ eps (a * e - b * d) (a * c - b * b) e0 kt; try lra.
have [i i' k _ _] := mid_4 a0 c0 D0 Dp qa qa' hs ht.
by exists q, q'; rewrite E /= E'.
Qed.

Lemma in01_frac x y : 0 <= x -> x <= y ->
  exists q, (if `|x| < eps then Some (0 : T) else quo x y) = Some q /\ in01 q.
Proof.
move=> x0 xy; case: ifP => h; first by exists 0; split=> //; split; lra.
rewrite ger0_norm // in h.
have yp : 0 < y by lra.
rewrite /quo (gt_eqF yp); exists (x / y); split=> //; split; first by rewrite divr_ge0 // ltW.
by rewrite ler_pdivr_mulr // mul1r.
Qed.
Lemma ee_st_in : exists s t, [/\ ee_st eps a b c d e = Some (s, t), in01 s & in01 t].
Proof.
suff H (sN sD tN tD : T) : 0 <= sN -> sN <= sD -> 0 <= tN -> tN <= tD -> exists s t,
    [/\ obind (fun sc => obind (fun tc => Some (sc, tc)) (if `|tN| < eps then Some 0 else quo tN tD))
          (if `|sN| < eps then Some 0 else quo sN sD) = Some (s, t), in01 s & in01 t].
  rewrite /ee_st.
  case: ifP => h1; last (case: ifP => h2; last case: ifP => h3);
    (case: ifP => ?; [case: ifP => ?; last case: ifP => ? |
      case: ifP => ?; [case: ifP => ?; last case: ifP => ? |]]); apply: H; lra.
move=> h1 h2 h3 h4.
have [q [-> i]] := in01_frac h1 h2.
have [q' [-> i']] := in01_frac h3 h4.
by exists q, q'.
Qed.
Lemma ee_category_in : exists k l s t, [/\ ee_category eps a b c d e = Some (k, l, s, t), in01 s & in01 t].
Proof.
suff H (sN sD tN tD : T) (k l : nat) : 0 <= sN -> sN <= sD -> 0 <= tN -> tN <= tD -> exists k' l' s t,
    [/\ obind (fun sc => obind (fun tc => Some (k, l, sc, tc)) (if `|tN| < eps then Some 0 else quo tN tD))
          (if `|sN| < eps then Some 0 else quo sN sD) = Some (k', l', s, t), in01 s & in01 t].
  rewrite /ee_category.
  case: ifP => h1; last (case: ifP => h2; last case: ifP => h3);
    (case: ifP => ?; [case: ifP => ?; last case: ifP => ? |
      case: ifP => ?; [case: ifP => ?; last case: ifP => ? |]]); apply: H; lra.
move=> h1 h2 h3 h4.
have [q [-> i]] := in01_frac h1 h2.
have [q' [-> i']] := in01_frac h3 h4.
by exists k, l, q, q'.
Qed.

Lemma ee_category_ok : (c = 0 -> e = 0) -> all_clear ->
  exists k l s t, [/\ ee_category eps a b c d e = Some (k, l, s, t), in01 s, in01 t, bkkt a b c d e s t
    & cate_ok k s (a * s - b * t + d) /\ cate_ok l t (c * t - b * s - e)].
Proof.
move=> ce [kD ks kt [ke keb kc kd kbd]].
have kbd' : clear eps (- d + b) by rewrite addrC.
have kd' := clearN kd.
have o0 : in01 (0 : T) by split; lra.
have o1 : in01 (1 : T) by split; lra.
rewrite /ee_category.
case: ifP => h1.
  have z : a * c - b * b = 0 by case: kD => // h; rewrite ger0_norm // leNgt h1 in h.
  case: ifP => h2.
    have [l0 [l1 l2]] := low_1 a0 c0 D0 par z h2.
    case: ifP => h3; first by exists 0%N, 0%N, 0, 0; rewrite zero_zero /= ?zero_zero; split=> //; apply: l0.
    case: ifP => h4; first by exists 1%N, 0%N, 1, 0; rewrite (self_one ltr01 one_clear) /= ?zero_zero; split=> //; apply: l1.
    have [|//|q [-> [qa h]]] := @frac _ eps (- d) a e0 kd'; try lra.
    have hd : 0 <= - d <= a by apply/andP; split; lra.
    have [i k] := l2 q hd qa h.
    by exists 2%N, 0%N, q, 0; rewrite /= zero_zero; split=> //; split=> //=; lra.
  have cp : 0 < c.
    rewrite lt_neqAle c0 andbT; apply/eqP => cz; move: h2.
    by rewrite ce ?lexx.
  case: ifP => h3.
    have [l0 [l1 l2]] := up_1 a0 c0 D0 par z h3.
    case: ifP => h4; first by exists 0%N, 1%N, 0, 1; rewrite zero_zero /= ?self_one //=; split=> //; apply: l0.
    case: ifP => h5; first by exists 1%N, 1%N, 1, 1; rewrite (self_one ltr01 one_clear) /= ?self_one //=; split=> //; apply: l1.
    have [|//|q [-> [qa h]]] := @frac _ eps (- d + b) a e0 kbd'; try lra.
    have hd : 0 <= - d + b <= a by apply/andP; split; lra.
    have [i k] := l2 q hd qa h.
    by exists 2%N, 1%N, q, 1; rewrite /= self_one //; split=> //; split=> //=; lra.
  have he : 0 <= e <= c by apply/andP; split; lra.
  have [||q [E [qa _]]] := @frac _ eps e c e0 ke; try lra.
  have [i k] := mid_1 a0 c0 D0 par z cp qa he.
  by exists 0%N, 2%N, 0, q; rewrite zero_zero /= E; split=> //; split=> //=; lra.
have Dp : 0 < a * c - b * b by lra.
have ap : 0 < a by nra.
have cp : 0 < c by nra.
case: ifP => h2.
  case: ifP => h3.
    have [l0 [l1 l2]] := low_2 a0 c0 D0 Dp (ltW h2) h3.
    case: ifP => h4; first by exists 0%N, 0%N, 0, 0; rewrite zero_zero /= ?zero_zero; split=> //; apply: l0.
    case: ifP => h5; first by exists 1%N, 0%N, 1, 0; rewrite self_one //= ?zero_zero; split=> //; apply: l1.
    have [|//|q [-> [qa h]]] := @frac _ eps (- d) a e0 kd'; try lra.
    have hd : 0 <= - d <= a by apply/andP; split; lra.
    have [i k] := l2 q hd qa.
    by exists 2%N, 0%N, q, 0; rewrite /= zero_zero; split=> //; split=> //=; lra.
  case: ifP => h4.
    have [l0 [l1 l2]] := up_2 a0 c0 D0 Dp (ltW h2) h4.
    case: ifP => h5; first by exists 0%N, 1%N, 0, 1; rewrite zero_zero /= ?self_one //=; split=> //; apply: l0.
    case: ifP => h6; first by exists 1%N, 1%N, 1, 1; rewrite self_one //= ?self_one //=; split=> //; apply: l1.
    have [|//|q [-> [qa h]]] := @frac _ eps (- d + b) a e0 kbd'; try lra.
    have hd : 0 <= - d + b <= a by apply/andP; split; lra.
    have [i k] := l2 q hd qa.
    by exists 2%N, 1%N, q, 1; rewrite /= self_one //; split=> //; split=> //=; lra.
  have he : 0 <= e <= c by apply/andP; split; lra.
  have [||q [E [qa _]]] := @frac _ eps e c e0 ke; try lra.
  have [i k] := mid_2 a0 c0 D0 Dp (ltW h2) qa he.
  by exists 0%N, 2%N, 0, q; rewrite zero_zero /= E; split=> //; split=> //=; lra.
case: ifP => h3.
  case: ifP => h4.
    have [l0 [l1 l2]] := low_3 a0 c0 D0 Dp (ltW h3) h4.
    case: ifP => h5; first by exists 0%N, 0%N, 0, 0; rewrite zero_zero /= ?zero_zero; split=> //; apply: l0.
    case: ifP => h6; first by exists 1%N, 0%N, 1, 0; rewrite self_one //= ?zero_zero; split=> //; apply: l1.
    have [|//|q [-> [qa h]]] := @frac _ eps (- d) a e0 kd'; try lra.
    have hd : 0 <= - d <= a by apply/andP; split; lra.
    have [i k] := l2 q hd qa.
    by exists 2%N, 0%N, q, 0; rewrite /= zero_zero; split=> //; split=> //=; lra.
  case: ifP => h5.
    have [l0 [l1 l2]] := up_3 a0 c0 D0 Dp (ltW h3) h5.
    case: ifP => h6; first by exists 0%N, 1%N, 0, 1; rewrite zero_zero /= ?self_one //=; split=> //; apply: l0.
    case: ifP => h7; first by exists 1%N, 1%N, 1, 1; rewrite self_one //= ?self_one //=; split=> //; apply: l1.
    have [|//|q [-> [qa h]]] := @frac _ eps (- d + b) a e0 kbd'; try lra.
    have hd : 0 <= - d + b <= a by apply/andP; split; lra.
    have [i k] := l2 q hd qa.
    by exists 2%N, 1%N, q, 1; rewrite /= self_one //; split=> //; split=> //=; lra.
  have he : 0 <= e + b <= c by apply/andP; split; lra.
  have [||q [E [qa _]]] := @frac _ eps (e + b) c e0 keb; try lra.
  have [i k] := mid_3 a0 c0 D0 Dp (ltW h3) qa he.
  by exists 1%N, 2%N, 1, q; rewrite self_one //= E; split=> //; split=> //=; lra.
have h2' : 0 <= b * e - c * d by lra.
have h3' : b * e - c * d <= a * c - b * b by lra.
case: ifP => h4.
  have [l0 [l1 l2]] := low_4 a0 c0 D0 Dp h2' h3' h4.
  case: ifP => h5; first by exists 0%N, 0%N, 0, 0; rewrite zero_zero /= ?zero_zero; split=> //; apply: l0.
  case: ifP => h6; first by exists 1%N, 0%N, 1, 0; rewrite self_one //= ?zero_zero; split=> //; apply: l1.
  have [|//|q [-> [qa h]]] := @frac _ eps (- d) a e0 kd'; try lra.
  have hd : 0 <= - d <= a by apply/andP; split; lra.
  have [i k] := l2 q hd qa.
  by exists 2%N, 0%N, q, 0; rewrite /= zero_zero; split=> //; split=> //=; lra.
case: ifP => h5.
  have [l0 [l1 l2]] := up_4 a0 c0 D0 Dp h2' h3' h5.
  case: ifP => h6; first by exists 0%N, 1%N, 0, 1; rewrite zero_zero /= ?self_one //=; split=> //; apply: l0.
  case: ifP => h7; first by exists 1%N, 1%N, 1, 1; rewrite self_one //= ?self_one //=; split=> //; apply: l1.
  have [|//|q [-> [qa h]]] := @frac _ eps (- d + b) a e0 kbd'; try lra.
  have hd : 0 <= - d + b <= a by apply/andP; split; lra.
  have [i k] := l2 q hd qa.
  by exists 2%N, 1%N, q, 1; rewrite /= self_one //; split=> //; split=> //=; lra.
have hs : 0 <= b * e - c * d <= a * c - b * b by apply/andP; split; lra.
have ht : 0 <= a * e - b * d <= a * c - b * b by apply/andP; split; lra.
have [||q [E [qa _]]] := @frac _ eps (b * e - c * d) (a * c - b * b) e0 ks; try lra.
have [||q' [E' [qa' _]]] := @frac _ eps (a * e - b * d) (a * c - b * b) e0 kt; try lra.
have [i i' k g1 g2] := mid_4 a0 c0 D0 Dp qa qa' hs ht.
by exists 2%N, 2%N, q, q'; rewrite E /= E'.
Qed.

End Cond.
End Scalar.
