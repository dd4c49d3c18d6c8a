(* The cubic. *)
From mathcomp Require Import all_ssreflect all_algebra.
From Coq Require Import Field.
From Verif Require Import FieldTac CpxModel CpxSpec CpxProofs.
Set Implicit Arguments.
Unset Strict Implicit.
Unset Printing Implicit Defensive.
Import GRing.Theory Num.Theory Order.Theory.
Local Open Scope ring_scope.

Section R.
Variable T : rcfType.
Let F : fieldType := [fieldType of T].
Add Field ff3 : (cfield F).
Lemma three_neq0 : (3%:R : T) <> 0. Proof. by apply/eqP; rewrite pnatr_eq0. Qed.
Lemma mthree_neq0 : (- 3%:R : T) <> 0. Proof. by apply/eqP; rewrite oppr_eq0 pnatr_eq0. Qed.
Ltac side := match goal with |- _ /\ _ => split; side | _ =>
  first [assumption | exact (@two_neq0 T) | exact (@two2_neq0 T) | exact three_neq0 | exact mthree_neq0] end.
Ltac fld := to_fld F; field; try side.

Lemma sqrt_real (x : T) : 0 < x -> c_sqrt (Cpx x 0) = Cpx (Num.sqrt x) 0.
Proof.
  move=> Hx. have [] := sqrt_ok (Cpx x 0).
  case: (c_sqrt _) => p q; rewrite /is_prod /= => -[H1 H2] Hp.
  have Hq : q = 0.
    have : p * q = 0.
      transitivity ((p * q + q * p) / 2%:R); first by fld.
      by rewrite -H2 mul0r.
    move/eqP; rewrite mulf_eq0 => /orP [] /eqP // Hp0.
    move: Hx; rewrite H1 Hp0 mul0r sub0r oppr_gt0 -expr2 => /(le_lt_trans (sqr_ge0 _)).
    by rewrite ltxx.
  congr Cpx => //. by rewrite H1 Hq mul0r subr0 -expr2 sqrtr_sqr ger0_norm.
Qed.

Lemma cubic_depressed (a b c d x : T) :
  27%:R * a ^+ 2 * cubic a b c d x =
  (3%:R * a * x + b) ^+ 3 - 3%:R * (b * b - 3%:R * a * c) * (3%:R * a * x + b)
  + (2%:R * b * b * b - 9%:R * a * b * c + 27%:R * a * a * d).
Proof. rewrite /cubic. by fld. Qed.

Section Real.
Variables a b c d tol : T.
Let d0 := b * b - 3%:R * a * c.
Let d1 := 2%:R * b * b * b - 9%:R * a * b * c + 27%:R * a * a * d.
Let D := d1 ^+ 2 - 4%:R * d0 ^+ 3.
Let s := Num.sqrt D.
Variable k : T.
Hypothesis Htol : 0 < tol.
Hypothesis Ha : tol < `|a|.
Hypothesis HD : 0 < D.
Hypothesis Hk : k ^+ 3 = (d1 + s) / 2%:R.
Hypothesis Hk0 : k <> 0.
Let e := d0 / k.

Lemma a_neq0 : a <> 0.
Proof. move=> E; move: Ha; rewrite E normr0 => H. by move: (lt_trans Htol H); rewrite ltxx. Qed.

Lemma s2 : s ^+ 2 = D. Proof. by rewrite sqr_sqrtr // ltW. Qed.
Lemma s0 : 0 < s. Proof. by rewrite sqrtr_gt0. Qed.

Lemma ke : k * e = d0. Proof. rewrite /e. by fld. Qed.

Lemma e3 : e ^+ 3 = (d1 - s) / 2%:R.
Proof.
  have Hk3 : k ^+ 3 <> 0 by apply/eqP; rewrite expf_neq0 //; apply/eqP.
  have H : k ^+ 3 * e ^+ 3 = k ^+ 3 * ((d1 - s) / 2%:R).
    rewrite -exprMn ke Hk.
    transitivity ((d1 ^+ 2 - s ^+ 2) / (2%:R * 2%:R)).
      rewrite s2 /D. generalize d0 d1 => u v. by fld.
    generalize d1 s => u v. by fld.
  move/eqP: H; rewrite -subr_eq0 -mulrBr mulf_eq0 subr_eq0 => /orP [] /eqP //.
Qed.

Lemma kne : k <> e.
Proof.
  move=> E. have := s0. have : s = 0.
    transitivity (k ^+ 3 - e ^+ 3); last by rewrite -E subrr.
    rewrite Hk e3. generalize d1 s => u v. by fld.
  move=> ->. by rewrite ltxx.
Qed.

Let x1 := - (b + k + e) / (3%:R * a).

Lemma root_x1 : cubic a b c d x1 = 0.
Proof.
  have Han := a_neq0.
  have H27 : 27%:R * a ^+ 2 <> 0.
    apply/eqP; rewrite mulf_neq0 ?pnatr_eq0 // expf_neq0 //; by apply/eqP.
  suff : 27%:R * a ^+ 2 * cubic a b c d x1 = 0 by move/eqP; rewrite mulf_eq0 => /orP [] /eqP.
  rewrite cubic_depressed -/d0 -/d1.
  have -> : 3%:R * a * x1 + b = - (k + e) by rewrite /x1; generalize e => u; fld.
  transitivity (d1 - (k ^+ 3 + e ^+ 3) + 3%:R * (d0 - k * e) * (k + e)).
    generalize d1 d0 e => u v w. by fld.
  rewrite ke Hk e3. generalize d1 s d0 e => u v w z. by fld.
Qed.

Lemma root_only x : cubic a b c d x = 0 -> x = x1.
Proof.
  move=> H. have Han := a_neq0.
  have := cubic_depressed a b c d x. rewrite H mulr0 -/d0 -/d1.
  set y := 3%:R * a * x + b => Hy.
  have H2 : (y + k + e) * ((2%:R * y - (k + e)) ^+ 2 + 3%:R * (k - e) ^+ 2) = 0.
    transitivity (4%:R * (y ^+ 3 - 3%:R * d0 * y + d1)); last by rewrite -Hy mulr0.
    have E1 : d1 = k ^+ 3 + e ^+ 3 by rewrite Hk e3; generalize d1 s => u v; fld.
    rewrite E1 -ke. generalize e y => u v. by fld.
  have H3 : (2%:R * y - (k + e)) ^+ 2 + 3%:R * (k - e) ^+ 2 <> 0.
    apply/eqP; rewrite gt_eqF // ltr_paddl ?sqr_ge0 // mulr_gt0 ?ltr0n //.
    rewrite lt_def sqr_ge0 andbT expf_neq0 // subr_eq0; apply/eqP; exact: kne.
  move/eqP: H2; rewrite mulf_eq0 => /orP [] /eqP // H4.
  rewrite /x1. have -> : b = - k - e - 3%:R * a * x.
    apply/eqP; rewrite -subr_eq0 -H4 /y; apply/eqP. generalize e => u. by fld.
  generalize e => u. by fld.
Qed.

Hypothesis Hsep : tol * (3%:R * `|a|) <= Num.sqrt 3%:R / 2%:R * `|k - e|.
Variable cbrt : complex T -> complex T.
Hypothesis Hcb : cbrt (Cpx ((d1 + s) / 2%:R) 0) = Cpx k 0.

Lemma cubic_root_real :
  cubic_root cbrt a b c d tol = if 0 < x1 then x1 else -1.
Proof.
  have Han := a_neq0.
  have Hkk : k * k <> 0 by apply/eqP; rewrite mulf_neq0 //; apply/eqP.
  have Ea : (`|a| <= tol) = false by rewrite leNgt Ha.
  rewrite /cubic_root Ea {Ea} /c_of -/d0 -/d1.
  have -> : c_sub (c_mul (Cpx d1 0) (Cpx d1 0))
     (c_mul (c_mul (r_mul_c 4%:R (Cpx d0 0)) (Cpx d0 0)) (Cpx d0 0)) = Cpx D 0.
    rewrite /c_sub /subeq /c_mul /muleq /r_mul_c /muleq_r /= /D.
    generalize d0 d1 => u v. congr Cpx; by fld.
  rewrite sqrt_real // -/s.
  have -> : c_div_r (c_add (Cpx d1 0) (Cpx s 0)) 2%:R = Cpx ((d1 + s) / 2%:R) 0.
    rewrite /c_div_r /diveq_r /c_add /addeq /=. by rewrite addr0 mul0r.
  rewrite Hcb.
  have -> : (c_abs (Cpx k 0) == 0) = false.
    apply/negbTE/negP => /eqP E. have [_] := abs_ok (Cpx k 0).
    rewrite E /c_norm /= expr2 !mulr0 addr0 => /esym/eqP; by rewrite mulf_eq0 orbb => /eqP.
  have Hr : Num.sqrt (3%:R : T) * Num.sqrt 3%:R = 3%:R by rewrite -expr2 sqr_sqrtr // ler0n.
  have Hsep' := Hsep.
  set r := Num.sqrt 3%:R in Hsep' Hr *.
  have -> : c_div_r (r_add_c (-1) (r_mul_c r (Cpx 0 1))) 2%:R = Cpx (- 1 / 2%:R) (r / 2%:R).
    rewrite /c_div_r /diveq_r /r_add_c /addeq_r /r_mul_c /muleq_r /=.
    generalize r => u. congr Cpx; by fld.
  have -> : c_div_r (r_sub_c (-1) (r_mul_c r (Cpx 0 1))) 2%:R = Cpx (- 1 / 2%:R) (- r / 2%:R).
    rewrite /c_div_r /diveq_r /r_sub_c /addeq_r /c_neg /r_mul_c /muleq_r /=.
    generalize r => u. congr Cpx; by fld.
  have E1 : c_div_r (c_add (r_add_c b (Cpx k 0)) (c_div (Cpx d0 0) (Cpx k 0))) (- 3%:R * a) = Cpx x1 0.
    rewrite /c_div_r /diveq_r /c_add /addeq /r_add_c /addeq_r /c_div /diveq /= /x1 /e.
    generalize d0 => u. congr Cpx.
    fld.
    fld.
  rewrite E1 {E1}.
  have Hgen q : q * q = 3%:R ->
      c_div_r (c_add (r_add_c b (c_mul (Cpx (- 1 / 2%:R) (q / 2%:R)) (Cpx k 0)))
                     (c_div (Cpx d0 0) (c_mul (Cpx (- 1 / 2%:R) (q / 2%:R)) (Cpx k 0)))) (- 3%:R * a)
      = Cpx ((b - (k + e) / 2%:R) / (- 3%:R * a)) (q / 2%:R * (k - e) / (- 3%:R * a)).
    move=> Hq.
    have -> : c_mul (Cpx (- 1 / 2%:R) (q / 2%:R)) (Cpx k 0) = Cpx (- k / 2%:R) (q / 2%:R * k).
      rewrite /c_mul /muleq /=. congr Cpx; by fld.
    have -> : c_div (Cpx d0 0) (Cpx (- k / 2%:R) (q / 2%:R * k)) = Cpx (- e / 2%:R) (- (q / 2%:R * e)).
      rewrite /c_div /diveq /=.
      have -> : - k / 2%:R * (- k / 2%:R) + q / 2%:R * k * (q / 2%:R * k) = k * k.
        transitivity ((1 + q * q) / (2%:R * 2%:R) * (k * k)); first by fld.
        rewrite Hq. by fld.
      rewrite /e. generalize d0 => u. congr Cpx; by fld.
    rewrite /c_div_r /diveq_r /c_add /addeq /r_add_c /addeq_r /=.
    generalize e => u. congr Cpx; by fld.
  have Hr' : - r * - r = 3%:R by rewrite mulrNN.
  rewrite (Hgen _ Hr) (Hgen _ Hr') {Hgen} /=.
  have Hb q : `|q| = r -> (`|q / 2%:R * (k - e) / (- 3%:R * a)| < tol) = false.
    move=> Hq. apply/negbTE; rewrite -leNgt !normrM !normfV !normrM normrN !normr_nat Hq.
    have Hp : 0 < 3%:R * `|a|.
      rewrite mulr_gt0 ?normr_gt0 ?ltr0n //. exact/eqP.
    by rewrite ler_pdivl_mulr.
  have Hrp : 0 <= r by apply: sqrtr_ge0.
  have N1 : `|r| = r by rewrite ger0_norm.
  have N2 : `|- r| = r by rewrite normrN.
  rewrite (Hb _ N1) (Hb _ N2) /= normr0 Htol /=.
  by case: ifP.
Qed.
End Real.
End R.
