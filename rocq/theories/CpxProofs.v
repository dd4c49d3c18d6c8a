(* Lemmas about complex arithmetic and the root finders. *)
From mathcomp Require Import all_ssreflect all_algebra.
From Coq Require Import Field.
From Verif Require Import FieldTac CpxModel CpxSpec.
Set Implicit Arguments.
Unset Strict Implicit.
Unset Printing Implicit Defensive.
Import GRing.Theory Num.Theory Order.Theory.
Local Open Scope ring_scope.

Section F.
Variable T : fieldType.
Add Field ff : (cfield T).
Ltac fld := to_fld T; field.
Implicit Types x y z : complex T.

Lemma div_ok x y : c_norm y <> 0 -> is_prod (c_div x y) y x.
Proof.
  case: x y => [a b] [c d]; rewrite /c_norm /is_prod /c_div /diveq /= => H.
  split; to_fld T; field; exact H.
Qed.

Lemma mul_iff x y :
  is_prod x y (c_mul x y) <-> (re x * re y - im x * im y - re x) * im y = 0.
Proof.
  case: x y => [a b] [c d]; rewrite /is_prod /c_mul /muleq /=; split.
  - case=> _ H. transitivity ((a * c - b * d) * d + b * c - (a * d + b * c)); first by fld.
    by rewrite H subrr.
  - move=> H; split=> //.
    transitivity (a * d + b * c + (a * c - b * d - a) * d); first by fld.
    by rewrite H addr0.
Qed.
End F.

Section R.
Variable T : rcfType.
Let F : fieldType := [fieldType of T].
Add Field ff2 : (cfield F).
Lemma two_neq0 : (2%:R : T) <> 0. Proof. by apply/eqP; rewrite pnatr_eq0. Qed.
Lemma two2_neq0 : (2%:R * 2%:R : T) <> 0. Proof. by apply/eqP; rewrite mulf_neq0 // pnatr_eq0. Qed.
Ltac side := match goal with |- _ /\ _ => split; side | _ => first [assumption | exact two_neq0 | exact two2_neq0] end.
Ltac fld := to_fld F; field; try side.
Implicit Types z : complex T.


Lemma abs_max0 (x y : T) : Num.max `|x| `|y| = 0 -> x = 0 /\ y = 0.
Proof.
  move=> H; split; apply/eqP; rewrite -normr_eq0 eq_le normr_ge0 -{1}H le_maxr lexx ?orbT //.
Qed.

Lemma abs_ok z : 0 <= c_abs z /\ c_abs z ^+ 2 = c_norm z.
Proof.
  case: z => x y; rewrite /c_abs /c_norm /=.
  case: eqP => [H|/eqP H].
  - have [-> ->] := abs_max0 H. by rewrite !normr0 maxxx expr2 !mulr0 addr0.
  - have Hs : 0 <= Num.max `|x| `|y| by rewrite le_maxr normr_ge0.
    split; first by rewrite mulr_ge0 // sqrtr_ge0.
    rewrite exprMn sqr_sqrtr; last by rewrite -!expr2 addr_ge0 // sqr_ge0.
    move/eqP: H; move: (Num.max _ _) => s H. fld.
Qed.

Lemma abs_ge z : `|re z| <= c_abs z.
Proof.
  have [H0 H1] := abs_ok z.
  rewrite -(@ler_pexpn2r _ 2) ?nnegrE ?normr_ge0 //.
  rewrite H1 real_normK ?num_real // /c_norm expr2 ler_addl -expr2 sqr_ge0 //.
Qed.

Lemma sqrt_ok z : is_prod (c_sqrt z) (c_sqrt z) z /\ 0 <= re (c_sqrt z).
Proof.
  have [A0 A1] := abs_ok z. have A2 := abs_ge z.
  rewrite /c_sqrt. case: ifP => [/eqP Hx|/eqP Hx].
  - case: z Hx {A0 A1 A2} => x y /= ->.
    have Hs : Num.sqrt (`|y| / 2%:R) * Num.sqrt (`|y| / 2%:R) = `|y| / 2%:R
      by rewrite -expr2 sqr_sqrtr // divr_ge0 // ler0n.
    split; last by rewrite /= sqrtr_ge0.
    rewrite /is_prod /=; case: ltP => Hy.
    + split; first by rewrite mulrNN subrr.
      rewrite mulrN mulNr Hs ltr0_norm // mulNr opprK -mulrDr; have := two_neq0 => H2.
      by fld.
    + split; first by rewrite subrr.
      rewrite Hs ger0_norm // ; have := two_neq0 => H2. by fld.
  - move: A0 A1 A2; move: (c_abs z) => r A0 A1 A2.
    have Hp : 0 < 2%:R * (r + `|re z|).
      rewrite mulr_gt0 ?ltr0n // ltr_paddl // normr_gt0; exact/eqP.
    set t := Num.sqrt _.
    have Ht : t * t = 2%:R * (r + `|re z|) by rewrite -expr2 sqr_sqrtr // ltW.
    have Ht0 : 0 < t by rewrite sqrtr_gt0.
    have Htn : t <> 0 by apply/eqP; rewrite gt_eqF.
    have H2 := two_neq0.
    move: t Ht Ht0 Htn; case: z Hx A1 A2 Hp; rewrite /c_norm /= => x y Hx A1 A2 Hp t Ht Ht0 Htn.
    have Hyy : y * y = (r - `|x|) * (r + `|x|).
      rewrite -subr_sqr A1 real_normK ?num_real //. by fld.
    have Htt : t * t <> 0 by rewrite Ht; apply/eqP; rewrite gt_eqF.
    have Hy2 : y * y / (t * t) = (r - `|x|) / 2%:R.
      rewrite Hyy Ht. have : r + `|x| <> 0.
        move=> E; move: Hp; by rewrite E mulr0 ltxx.
      move=> Hn. fld.
    case: ltP => Hs.
    + rewrite gtr0_norm // in Ht Hy2. rewrite /is_prod /=; split; last by rewrite divr_ge0 ?ler0n ?ltW.
      split.
      * transitivity (t * t / (2%:R * 2%:R) - y * y / (t * t)).
          rewrite Hy2 Ht. by fld.
        by fld.
      * by fld.
    + have Hx' : `|x| = - x by rewrite ler0_norm.
      rewrite Hx' in Ht Hy2.
      rewrite /is_prod /=; split; last by rewrite divr_ge0 ?normr_ge0 ?ltW.
      have Ea : `|y| * `|y| = y * y by rewrite -normrM ger0_norm // -expr2 sqr_ge0.
      have E1 : `|y| / t * (`|y| / t) = y * y / (t * t) by rewrite -Ea; fld.
      have E2 : t / 2%:R * (t / 2%:R) = t * t / (2%:R * 2%:R) by fld.
      case: ltP => Hy.
      * split.
          rewrite mulrNN E1 E2 Hy2 Ht; by fld.
        rewrite ltr0_norm //; by fld.
      * split.
          rewrite E1 E2 Hy2 Ht; by fld.
        rewrite ger0_norm //; by fld.
Qed.

(** the quadratic *)
Lemma quad_factor (a b c s : T) :
  a <> 0 -> s * s = b * b - 4%:R * a * c ->
  forall t, quad a b c t = a * (t - (- b - s) / (2%:R * a)) * (t - (- b + s) / (2%:R * a)).
Proof.
  move=> Ha Hs t. rewrite /quad. have H2 := two_neq0.
  transitivity (a * t ^+ 2 + b * t + (b * b - s * s) / (2%:R * 2%:R * a)).
    congr (_ + _). rewrite Hs. fld.
  fld.
Qed.

Lemma quad_disc_neg (a b c t : T) :
  quad a b c t = 0 -> 0 <= b * b - 4%:R * a * c.
Proof.
  rewrite /quad => H.
  suff -> : b * b - 4%:R * a * c = (2%:R * a * t + b) ^+ 2 - 4%:R * a * (a * t ^+ 2 + b * t + c)
    by rewrite H mulr0 subr0 sqr_ge0.
  by fld.
Qed.

Lemma quad_root_pos (a b c tol : T) :
  0 <= tol -> tol < a -> b * b - 4%:R * a * c <> 0 ->
  let t := quad_root a b c tol in
  (0 <= t /\ quad a b c t = 0 /\ (forall s, 0 <= s -> quad a b c s = 0 -> t <= s))
  \/ (t < 0 /\ forall s, 0 <= s -> quad a b c s <> 0).
Proof.
  move=> Ht Hta Hd. have Ha : 0 < a by apply: le_lt_trans Hta.
  have Han : a <> 0 by apply/eqP; rewrite gt_eqF.
  have E0 : (a <= tol) = false by rewrite leNgt Hta.
  rewrite /quad_root gtr0_norm // E0 {E0}.
  set D := b * b - 4%:R * a * c in Hd *.
  case: (ltP 0 D) => HD; last first.
  - right; split; first by rewrite ltrN10.
    move=> s _ /quad_disc_neg; rewrite -/D => H. apply: Hd; apply/eqP; by rewrite eq_le HD H.
  - set s := Num.sqrt D.
    have Hs : s * s = D by rewrite -expr2 sqr_sqrtr // ltW.
    have Hs0 : 0 < s by rewrite sqrtr_gt0.
    have QF := quad_factor Han Hs.
    set t1 := (- b - s) / (2%:R * a). set t2 := (- b + s) / (2%:R * a).
    have Hlt : t1 < t2.
      rewrite ltr_pmul2r ?invr_gt0 ?mulr_gt0 ?ltr0n // ltr_add2l. by apply: (@lt_trans _ _ 0) => //; rewrite oppr_lt0.
    have Hroot u : quad a b c u = 0 -> u = t1 \/ u = t2.
      rewrite QF => /eqP; rewrite !mulf_eq0 !subr_eq0 (gt_eqF Ha) /= => /orP [] /eqP ->; [by left|by right].
    have R1 : quad a b c t1 = 0 by rewrite QF -/t1 subrr mulr0 mul0r.
    have R2 : quad a b c t2 = 0 by rewrite QF -/t2 subrr mulr0.
    case: (ltP t1 0) => H1.
    + case: (ltP t2 0) => H2.
      * right; split=> // u Hu /Hroot [] E; move: Hu; rewrite E leNgt ?H1 ?H2 //.
      * left; split=> //; split=> // u Hu /Hroot [] E; last by rewrite E.
        move: Hu; by rewrite E leNgt H1.
    + left; split=> //; split=> // u Hu /Hroot [] ->; [exact: lexx | exact: ltW].
Qed.

Lemma quad_root_lin (b c tol : T) :
  0 <= tol -> b <> 0 ->
  let t := quad_root 0 b c tol in
  quad 0 b c t = 0 /\ forall s, quad 0 b c s = 0 -> s = t.
Proof.
  move=> Ht Hb. rewrite /quad_root normr0 Ht /quad /=; split.
  - by fld.
  - move=> s; rewrite mul0r add0r => /eqP; rewrite addr_eq0 => /eqP H.
    rewrite -H. by fld.
Qed.
End R.
