(* C59: complex arithmetic; C60: the smallest positive root of a polynomial. *)
From mathcomp Require Import all_ssreflect all_algebra.
From Coq Require Import Field.
From Verif Require Import FieldTac CpxModel CpxSpec CpxProofs CpxProofs2.
Set Implicit Arguments.
Unset Strict Implicit.
Unset Printing Implicit Defensive.
Import GRing.Theory Num.Theory Order.Theory.
Local Open Scope ring_scope.

(** C59: sums and differences, with complex and real operands on either side *)
Theorem C59_sums : forall (T : fieldType) (x y : complex T) (r : T),
  is_sum x y (c_add x y) /\ is_sum x (real_c r) (c_add_r x r) /\ is_sum (real_c r) x (r_add_c r x) /\
  is_diff x y (c_sub x y) /\ is_diff x (real_c r) (c_sub_r x r) /\ is_diff (real_c r) x (r_sub_c r x) /\
  is_diff (real_c 0) x (c_neg x).
Proof.
  move=> T [a b] [c d] r; rewrite /is_diff /is_sum /=.
  repeat split; rewrite ?addr0 ?add0r ?subrK ?subr0 ?addNr //;
    first [by rewrite addrC | by rewrite addrAC addNr add0r].
Qed.
Print Assumptions C59_sums.

(** C59: products and quotients by a real number, quotients by a non-zero
    complex number, the product with the conjugate *)
Theorem C59_quotients : forall (T : fieldType) (x y : complex T) (r : T),
  is_prod x (real_c r) (c_mul_r x r) /\ is_prod (real_c r) x (r_mul_c r x) /\
  (r <> 0 -> is_prod (c_div_r x r) (real_c r) x) /\
  (c_norm y <> 0 -> is_prod (c_div x y) y x /\ is_prod (r_div_c r y) y (real_c r)) /\
  is_prod x (c_conj x) (real_c (c_norm x)) /\
  (c_eqb x y <-> x = y) /\ (c_eqb_r x r <-> x = real_c r).
Proof.
  move=> T x y r.
  split; first by case: x => a b; rewrite /is_prod /= !mulr0 subr0 add0r.
  split; first by case: x => a b; rewrite /is_prod /= !mul0r subr0 addr0 ![_ * r]mulrC.
  split.
    case: x => a b /eqP H; rewrite /is_prod /= !mulr0 subr0 add0r !divfK //.
  split; first by move=> H; split; apply: div_ok.
  split.
    case: x => a b; rewrite /is_prod /c_norm /= !mulrN opprK; split=> //.
    by rewrite [b * a]mulrC addNr.
  case: x => a b; case: y => c d; rewrite /c_eqb /c_eqb_r /=; split; split.
  - by case/andP => /eqP -> /eqP ->.
  - by case=> -> ->; rewrite !eqxx.
  - by case/andP => /eqP -> /eqP ->.
  - by case=> -> ->; rewrite !eqxx.
Qed.
Print Assumptions C59_quotients.

Example C59_nonvacuous :
  c_norm (Cpx (3%:R : rat) 4%:R) <> 0 /\
  c_div (Cpx (1 : rat) 0) (Cpx 3%:R 4%:R) = Cpx (3%:R / 25%:R) (- 4%:R / 25%:R).
Proof. split; last by congr Cpx; apply/eqP. by apply/eqP. Qed.

(** C59, failing part: the product of two complex numbers is right exactly when
    (re (x y) - re x) im y = 0, in particular for a real right operand; the
    square of i comes out as -1 - i. *)
Theorem C59_product_partial : forall (T : fieldType) (x y : complex T),
  (is_prod x y (c_mul x y) <-> (re x * re y - im x * im y - re x) * im y = 0) /\
  (im y = 0 -> is_prod x y (c_mul x y)).
Proof.
  move=> T x y; split; first exact: mul_iff.
  move=> H; apply/mul_iff; by rewrite H mulr0.
Qed.
Print Assumptions C59_product_partial.

Theorem C59_product_refuted : forall T : fieldType,
  let i := Cpx (0 : T) 1 in
  c_mul i i = Cpx (-1) (-1) /\ ~ is_prod i i (c_mul i i) /\
  (* x *= x reads the half-updated operand *)
  (forall x : complex T, im x <> 0 -> (2%:R : T) <> 0 ->
     re x * re x - im x * im x <> re x -> ~ is_prod x x (muleq_alias x)).
Proof.
  move=> T /=; split; last split.
  - rewrite /c_mul /muleq /= !mul0r mulr0 !mulr1 sub0r. congr Cpx. by rewrite addr0.
  - rewrite /is_prod /c_mul /muleq /= !mul0r !mulr0 !mulr1 sub0r !addr0 => -[_ /eqP].
    by rewrite oppr_eq0 oner_eq0.
  - case=> a b; rewrite /is_prod /muleq_alias /= => /eqP Hb /eqP H2 Ha [_ H]; apply: Ha.
    apply: (mulIf Hb); apply: (mulIf H2).
    set w := a * a - b * b in H *.
    by move: H; rewrite !mulr_natr !mulr2n [b * w]mulrC [b * a]mulrC.
Qed.
Print Assumptions C59_product_refuted.

(** C59: the magnitude, and the square root with non-negative real part *)
Theorem C59_abs_sqrt : forall (T : rcfType) (z : complex T),
  (0 <= c_abs z /\ c_abs z ^+ 2 = re z ^+ 2 + im z ^+ 2) /\
  (is_prod (c_sqrt z) (c_sqrt z) z /\ 0 <= re (c_sqrt z)).
Proof.
  move=> T z; split; last exact: sqrt_ok.
  have [H0 H1] := abs_ok z; by split; rewrite ?H1 /c_norm ?expr2.
Qed.
Print Assumptions C59_abs_sqrt.

(** C60: leading coefficient above the tolerance, discriminant not zero: the
    result is the smallest non-negative root, or negative when there is none;
    zero leading coefficient: the root of the linear equation. *)
Theorem C60_quadratic_partial : forall (T : rcfType) (a b c tol : T),
  0 <= tol -> tol < a -> b ^+ 2 - 4%:R * a * c <> 0 ->
  let t := quad_root a b c tol in
  (0 <= t /\ quad a b c t = 0 /\ (forall s, 0 <= s -> quad a b c s = 0 -> t <= s))
  \/ (t < 0 /\ forall s, 0 <= s -> quad a b c s <> 0).
Proof. move=> T a b c tol Ht Ha; rewrite expr2; exact: quad_root_pos. Qed.
Print Assumptions C60_quadratic_partial.

Theorem C60_linear : forall (T : rcfType) (b c tol : T),
  0 <= tol -> b <> 0 ->
  let t := quad_root 0 b c tol in
  quad 0 b c t = 0 /\ forall s, quad 0 b c s = 0 -> s = t.
Proof. exact: quad_root_lin. Qed.
Print Assumptions C60_linear.

Section Lits.
Variable T : rcfType.
Let F : fieldType := [fieldType of T].
Add Field ff4 : (cfield F).
Ltac side := match goal with |- _ /\ _ => split; side | _ =>
  first [assumption | exact (@two_neq0 T) | exact (@two2_neq0 T) | exact (@three_neq0 T) | exact (@mthree_neq0 T)] end.
Ltac fld := to_fld F; field; try side.

Lemma quad_neg : quad_root (-1 : T) 3%:R (- 2%:R) 0 = 2%:R.
Proof.
  rewrite /quad_root normrN normr1 ler10.
  have -> : 3%:R * 3%:R - 4%:R * -1 * - 2%:R = (1 : T) by fld.
  have m2 : (2%:R * -1 : T) != 0 by rewrite mulrN1 oppr_eq0 pnatr_eq0.
  rewrite ltr01 sqrtr1.
  have -> : (- 3%:R - 1) / (2%:R * -1) = (2%:R : T).
    apply: (mulIf m2). rewrite divfK //. by fld.
  by rewrite ltrn0.
Qed.

Lemma quad_zero : quad_root (1 : T) (-1) 0 0 = 0.
Proof.
  rewrite /quad_root normr1 ler10 mulr0 subr0 mulrNN mulr1 ltr01 sqrtr1 opprK subrr mul0r.
  by rewrite ltxx.
Qed.

Lemma quad_double : quad_root (1 : T) (- 2%:R) 1 0 = -1.
Proof.
  rewrite /quad_root normr1 ler10.
  have -> : - 2%:R * - 2%:R - 4%:R * 1 * 1 = (0 : T) by fld.
  by rewrite ltxx.
Qed.

Lemma cubic_one (cbrt : complex T -> complex T) (tol : T) :
  0 <= tol -> tol < 1 ->
  cbrt (Cpx 0 0) = Cpx 0 0 ->
  cbrt (Cpx (- 27%:R) 0) = Cpx (3%:R / 2%:R) (3%:R * Num.sqrt 3%:R / 2%:R) ->
  cubic_root cbrt 1 0 0 (-1) tol = -1.
Proof.
  move=> H0 H1 C0 C27.
  have E1 : (`|1 : T| <= tol) = false by rewrite normr1 leNgt H1.
  rewrite /cubic_root E1 {E1}.
  have -> : (0 * 0 - 3%:R * 1 * 0 : T) = 0 by fld.
  have -> : (2%:R * 0 * 0 * 0 - 9%:R * 1 * 0 * 0 + 27%:R * 1 * 1 * -1 : T) = - 27%:R by fld.
  rewrite /c_of.
  have -> : c_sub (c_mul (Cpx (- 27%:R : T) 0) (Cpx (- 27%:R) 0))
     (c_mul (c_mul (r_mul_c 4%:R (Cpx 0 0)) (Cpx 0 0)) (Cpx 0 0)) = Cpx (27%:R ^+ 2) 0.
    rewrite /c_sub /subeq /c_mul /muleq /r_mul_c /muleq_r /= expr2.
    congr Cpx; by fld.
  rewrite sqrt_real ?exprn_gt0 ?ltr0n // sqrtr_sqr normr_nat.
  have -> : c_div_r (c_add (Cpx (- 27%:R : T) 0) (Cpx 27%:R 0)) 2%:R = Cpx 0 0.
    by rewrite /c_div_r /diveq_r /c_add /addeq /= addNr addr0 !mul0r.
  have -> : c_div_r (c_sub (Cpx (- 27%:R : T) 0) (Cpx 27%:R 0)) 2%:R = Cpx (- 27%:R) 0.
    rewrite /c_div_r /diveq_r /c_sub /subeq /=. congr Cpx; by fld.
  rewrite C0 C27.
  have -> : (c_abs (Cpx (0 : T) 0) == 0) by rewrite /c_abs /= !normr0 maxxx eqxx.
  have Hr : Num.sqrt (3%:R : T) * Num.sqrt 3%:R = 3%:R by rewrite -expr2 sqr_sqrtr // ler0n.
  have Hr1 : 1 < Num.sqrt (3%:R : T).
    rewrite -{1}sqrtr1 ltr_sqrt ?ltr0n // -{1}[1]/(1%:R) ltr_nat //.
  move: (Num.sqrt 3%:R) Hr Hr1 => r Hr Hr1.
  have Hdiv w : c_div (Cpx (0 : T) 0) w = Cpx 0 0.
    by rewrite /c_div /diveq /= !mul0r addr0 subr0 !mul0r.
  rewrite !Hdiv {Hdiv}.
  rewrite /c_div_r /diveq_r /c_add /addeq /r_add_c /addeq_r /r_mul_c /muleq_r /r_sub_c /addeq_r /c_neg
    /c_mul /muleq /=.
  set re1 := (3%:R / 2%:R + 0 + 0) / _. have N1 : (0 < re1) = false.
    have -> : re1 = - (1 / 2%:R) by rewrite /re1; fld.
    by rewrite oppr_gt0 ltNge divr_ge0 ?ler01 ?ler0n.
  rewrite N1 andbF {re1 N1}.
  have N2 : (`|(((0 * r - 1) / 2%:R * (3%:R / 2%:R) - 1 * r / 2%:R * (3%:R * r / 2%:R)) *
           (3%:R * r / 2%:R) + 1 * r / 2%:R * (3%:R / 2%:R) + 0) / (- 3%:R * 1)| < tol) = false.
    have -> : (((0 * r - 1) / 2%:R * (3%:R / 2%:R) - 1 * r / 2%:R * (3%:R * r / 2%:R)) *
           (3%:R * r / 2%:R) + 1 * r / 2%:R * (3%:R / 2%:R) + 0) / (- 3%:R * 1)
         = r * (3%:R / 2%:R * ((1 + r * r) / (2%:R * 2%:R)) - 1 / (2%:R * 2%:R)) by fld.
    rewrite Hr.
    have -> : 3%:R / 2%:R * ((1 + 3%:R) / (2%:R * 2%:R)) - 1 / (2%:R * 2%:R) = 1 + 1 / (2%:R * 2%:R) :> T by fld.
    have Hq : 0 <= 1 / (2%:R * 2%:R) :> T by rewrite divr_ge0 ?mulr_ge0 ?ler01 ?ler0n.
    apply/negbTE; rewrite -leNgt; apply: (le_trans (ltW H1)).
    rewrite ger0_norm; last by rewrite mulr_ge0 ?addr_ge0 ?ler01 // ltW // (lt_trans _ Hr1) ?ltr01.
    rewrite -{1}[1]mulr1; apply: ler_pmul; rewrite ?ler01 ?(ltW Hr1) // ler_addl //.
  have N3 : (0 < ((- (0 * r) - 1) / 2%:R * (3%:R / 2%:R) - - (1 * r) / 2%:R * (3%:R * r / 2%:R) + 0 + 0) /
    (- 3%:R * 1)) = false.
    have -> : ((- (0 * r) - 1) / 2%:R * (3%:R / 2%:R) - - (1 * r) / 2%:R * (3%:R * r / 2%:R) + 0 + 0) / (- 3%:R * 1)
       = - ((r * r - 1) / (2%:R * 2%:R)) by fld.
    rewrite Hr. have -> : (3%:R - 1) / (2%:R * 2%:R) = 1 / 2%:R :> T by fld.
    by rewrite oppr_gt0 ltNge divr_ge0 ?ler01 ?ler0n.
  by rewrite N2 N3 andbF.
Qed.
Lemma lit_216 : 2%:R * - 3%:R * - 3%:R * - 3%:R - 9%:R * 1 * - 3%:R * 3%:R + 27%:R * 1 * 1 * 7%:R = 6%:R ^+ 3 :> T.
Proof. by fld. Qed.
End Lits.

(** C60, failing part.  With a negative leading coefficient the larger root is
    returned (2 instead of 1 for - x^2 + 3 x - 2), a double root is missed
    (x^2 - 2 x + 1), and the root 0 is returned although the smallest positive
    root is 1 (x^2 - x). *)
Theorem C60_quadratic_refuted : forall T : rcfType,
  (quad_root (-1 : T) 3%:R (- 2%:R) 0 = 2%:R /\ quad (-1 : T) 3%:R (- 2%:R) 1 = 0) /\
  (quad_root (1 : T) (- 2%:R) 1 0 = -1 /\ quad (1 : T) (- 2%:R) 1 1 = 0) /\
  (quad_root (1 : T) (-1) 0 0 = 0 /\ quad (1 : T) (-1) 0 1 = 0).
Proof.
  move=> T; split; [|split]; split.
  - exact: quad_neg.
  - rewrite /quad expr1n !mulr1. by rewrite addrAC -opprD -[1 + 2%:R]/(3%:R) addNr.
  - exact: quad_double.
  - by rewrite /quad expr1n !mulr1 addrAC -[1 + 1]/(2%:R) subrr.
  - exact: quad_zero.
  - by rewrite /quad expr1n !mulr1 subrr add0r.
Qed.
Print Assumptions C60_quadratic_refuted.

(** C60: a cubic with one real root whose resolvent has a real cube root [k]:
    the result is the smallest positive root, or negative when there is none.
    d0, d1 and the discriminant as in Cardano's formula; the last hypothesis
    says that the tolerance does not take the complex roots for real ones. *)
Theorem C60_cubic_partial : forall (T : rcfType) (cbrt : complex T -> complex T) (a b c d tol k : T),
  let d0 := b * b - 3%:R * a * c in
  let d1 := 2%:R * b * b * b - 9%:R * a * b * c + 27%:R * a * a * d in
  let D := d1 ^+ 2 - 4%:R * d0 ^+ 3 in
  let K := (d1 + Num.sqrt D) / 2%:R in
  0 < tol -> tol < `|a| -> 0 < D ->
  k ^+ 3 = K -> k <> 0 -> cbrt (Cpx K 0) = Cpx k 0 ->
  tol * (3%:R * `|a|) <= Num.sqrt 3%:R / 2%:R * `|k - d0 / k| ->
  let t := cubic_root cbrt a b c d tol in
  smallest_positive (cubic a b c d) t \/ (t < 0 /\ no_positive (cubic a b c d)).
Proof.
  move=> T cbrt a b c d tol k d0 d1 D K Ht Ha HD Hk Hk0 Hc Hs t.
  have E : t = _ := @cubic_root_real T a b c d tol k Ht Ha HD Hk0 Hs cbrt Hc.
  have R := @root_x1 T a b c d tol k Ht Ha HD Hk Hk0.
  have U := @root_only T a b c d tol k Ht Ha HD Hk Hk0.
  rewrite E; case: ifP => H.
  - left; split=> //; split=> // s _ /U ->. exact: lexx.
  - right; split; first exact: ltrN10. move=> s Hp /U Hx; move: H; by rewrite -Hx Hp.
Qed.
Print Assumptions C60_cubic_partial.

(* x^3 - 3 x^2 + 3 x + 7 = (x - 1)^3 + 8: d0 = 0, d1 = 27 * 8, K = d1, k = 6 *)
Example C60_cubic_nonvacuous : forall T : rcfType,
  let a := 1 : T in let b := - 3%:R : T in let c := 3%:R : T in let d := 7%:R : T in
  let d0 := b * b - 3%:R * a * c in
  let d1 := 2%:R * b * b * b - 9%:R * a * b * c + 27%:R * a * a * d in
  let D := d1 ^+ 2 - 4%:R * d0 ^+ 3 in
  d0 = 0 /\ d1 = 6%:R ^+ 3 /\ 0 < D /\ (6%:R : T) ^+ 3 = (d1 + Num.sqrt D) / 2%:R.
Proof.
  move=> T a b c d d0 d1 D.
  have E0 : d0 = 0 by rewrite /d0 /a /b /c mulrNN mulr1 subrr.
  have E1 : d1 = 6%:R ^+ 3 by exact: lit_216.
  split=> //; split=> //.
  have ED : D = (6%:R ^+ 3) ^+ 2 by rewrite /D E0 E1 [0 ^+ 3]expr0n /= mulr0 subr0.
  rewrite ED; split; first by rewrite !exprn_gt0 ?ltr0n.
  rewrite E1 sqrtr_sqr ger0_norm ?exprn_ge0 ?ler0n //.
  move: (6%:R ^+ 3) => u; by rewrite -mulr2n -[u *+ 2]mulr_natr mulfK // pnatr_eq0.
Qed.

(** C60, failing part: x^3 - 1, whose resolvent has the complex principal cube
    root 3 e^(i pi/3): no root is found. *)
Theorem C60_cubic_refuted : forall (T : rcfType) (cbrt : complex T -> complex T) (tol : T),
  0 <= tol -> tol < 1 ->
  cbrt (Cpx 0 0) = Cpx 0 0 ->
  cbrt (Cpx (- 27%:R) 0) = Cpx (3%:R / 2%:R) (3%:R * Num.sqrt 3%:R / 2%:R) ->
  cubic_root cbrt 1 0 0 (-1) tol = -1 /\ smallest_positive (cubic (1 : T) 0 0 (-1)) 1.
Proof.
  move=> T cbrt tol H0 H1 C0 C27; split; first exact: cubic_one.
  split; first exact: ltr01. split.
    by rewrite /cubic !expr1n !mul0r !addr0 mulr1 subrr.
  move=> s Hs /eqP; rewrite /cubic mul1r !mul0r !addr0 subr_eq0 => /eqP E.
  rewrite -(@ler_pexpn2r _ 3) ?nnegrE ?ler01 ?(ltW Hs) //. by rewrite E expr1n.
Qed.
Print Assumptions C60_cubic_refuted.
