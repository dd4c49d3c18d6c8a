(* C63: sqrtNewtonRaphson in exact arithmetic. *)
From mathcomp Require Import all_ssreflect all_algebra.
From Coq Require Import Field.
From Verif Require Import FieldTac NewtModel.
Set Implicit Arguments.
Unset Strict Implicit.
Unset Printing Implicit Defensive.
Import GRing.Theory Num.Theory Order.Theory.
Local Open Scope ring_scope.

Section R.
Variable T : rcfType.
Let F : fieldType := [fieldType of T].
Add Field ff : (cfield F).
Lemma two_n0 : (2%:R : T) <> 0. Proof. by apply/eqP; rewrite pnatr_eq0. Qed.
Ltac side := match goal with |- _ /\ _ => split; side | _ => first [assumption | exact two_n0] end.
Ltac fld := to_fld F; field; try side.

Lemma half_step (n x : T) : x <> 0 ->
  let x' := 1 / 2%:R * (x + n / x) in x' * x' - n = (x' - x) * (x' - x).
Proof. move=> Hx /=. by fld. Qed.

Lemma step_gt0 (n x : T) : 0 < n -> 0 < x -> 0 < 1 / 2%:R * (x + n / x).
Proof. move=> Hn Hx. by rewrite mulr_gt0 ?divr_gt0 ?ltr01 ?ltr0n // addr_gt0 // divr_gt0. Qed.

Lemma loop_value fuel (n tol x r : T) : 0 < n -> 0 <= tol -> 0 < x ->
  newton_loop fuel n tol x (1 / 2%:R * (x + n / x)) = Value r ->
  0 < r /\ 0 <= r ^+ 2 - n <= tol ^+ 2.
Proof.
  move=> Hn Ht. elim: fuel x => [|fuel IH] x Hx //=.
  case: ltP => H.
  - apply: IH. exact: step_gt0.
  - case=> <-. split; first exact: step_gt0.
    have Hx0 : x <> 0 by apply/eqP; rewrite gt_eqF.
    rewrite !expr2 (half_step n Hx0) -!expr2 sqr_ge0 /= -real_normK ?num_real //.
    by rewrite ler_expn2r // nnegrE.
Qed.

(* with s the root of n, the error at least halves in every round *)
Lemma step_err (s x : T) : 0 < s -> s <= x ->
  let x' := 1 / 2%:R * (x + s * s / x) in s <= x' /\ x' - s <= (x - s) / 2%:R /\ `|x' - x| <= x - s.
Proof.
  move=> Hs Hx /=. have Hx0 : 0 < x := lt_le_trans Hs Hx.
  have xn : x <> 0 by apply/eqP; rewrite gt_eqF.
  have E1 : 1 / 2%:R * (x + s * s / x) - s = (x - s) * (x - s) / (2%:R * x) by fld.
  have Hd : 0 <= x - s by rewrite subr_ge0.
  have H2 : 0 < 2%:R * x by rewrite mulr_gt0 ?ltr0n.
  have G1 : s <= 1 / 2%:R * (x + s * s / x).
    rewrite -subr_ge0 E1 divr_ge0 ?(ltW H2) //. exact: mulr_ge0.
  have G2 : 1 / 2%:R * (x + s * s / x) - s <= (x - s) / 2%:R.
    rewrite E1. rewrite ler_pdivr_mulr // mulrA divfK ?pnatr_eq0 //.
    apply: ler_wpmul2l => //. by rewrite ler_subl_addr ler_addl ltW.
  split=> //; split=> //.
  have E2 : 1 / 2%:R * (x + s * s / x) - x = - ((x - s) - (1 / 2%:R * (x + s * s / x) - s)) by fld.
  rewrite E2 normrN ger0_norm.
  - by rewrite ler_subl_addr ler_addl subr_ge0.
  - rewrite subr_ge0. apply: (le_trans G2). by rewrite ler_pdivr_mulr ?ltr0n // ler_pemulr // ler1n.
Qed.

Lemma loop_stops k (s tol x : T) : 0 < s -> s <= x -> x - s <= 2%:R ^+ k * tol ->
  newton_loop k.+1 (s * s) tol x (1 / 2%:R * (x + s * s / x)) <> Running.
Proof.
  move=> Hs. elim: k x => [|k IH] x Hx Hd.
  - rewrite expr0 mul1r in Hd. have [_ [_ H]] := step_err Hs Hx.
    rewrite /=. have -> : (tol < `|1 / 2%:R * (x + s * s / x) - x|) = false.
      by apply/negbTE; rewrite -leNgt; apply: le_trans H Hd.
    by [].
  - have [H1 [H2 _]] := step_err Hs Hx.
    rewrite [newton_loop _ _ _ _ _]/=. case: ifP => // _. apply: IH => //.
    apply: (le_trans H2). rewrite ler_pdivr_mulr ?ltr0n //.
    by apply: (le_trans Hd); rewrite exprS [2%:R * _]mulrC mulrAC.
Qed.

Lemma first_ge (s : T) : s <= 1 / 2%:R * (1 + s * s / 1).
Proof.
  rewrite -subr_ge0.
  have -> : 1 / 2%:R * (1 + s * s / 1) - s = (s - 1) * (s - 1) / 2%:R.
    rewrite divr1. by fld.
  by rewrite divr_ge0 ?ler0n // -expr2 sqr_ge0.
Qed.
End R.

(** C63: where it returns a number for n >= eps, the square of the result is
    above n by at most the square of the tolerance max(n relTol, eps); small
    arguments give 0, negative ones below -eps NaN. *)
Theorem C63_accuracy : forall (T : rcfType) (fuel : nat) (eps n relTol : T),
  0 < eps ->
  (n < - eps -> sqrtNewtonRaphson fuel eps n relTol = NaN) /\
  (- eps <= n -> n < eps -> sqrtNewtonRaphson fuel eps n relTol = Value 0) /\
  (eps <= n -> forall r, sqrtNewtonRaphson fuel eps n relTol = Value r ->
     0 < r /\ n <= r ^+ 2 <= n + Num.max (n * relTol) eps ^+ 2).
Proof.
  move=> T fuel eps n relTol He; rewrite /sqrtNewtonRaphson; split; [|split].
  - by move=> ->.
  - move=> H1 H2. by rewrite ltNge H1 /= H2.
  - move=> H r. have H1 : (n < - eps) = false.
      apply/negbTE; rewrite -leNgt. apply: le_trans H. by rewrite (le_trans (y := 0)) // ?oppr_le0 ltW.
    rewrite H1 ltNge H /=.
    have Hn : 0 < n := lt_le_trans He H.
    move/(loop_value Hn _ ltr01) => [].
      by rewrite le_maxr (ltW He) orbT.
    rewrite subr_ge0 ler_subl_addl => H0 H2. by split.
Qed.
Print Assumptions C63_accuracy.

(** C63: it returns; the number of rounds is bounded by the logarithm of
    1 / eps + 1 / relTol, whatever the argument. *)
Theorem C63_terminates : forall (T : rcfType) (k : nat) (eps relTol : T),
  0 < eps -> 0 < relTol -> 1 / eps + 1 / relTol <= 2%:R ^+ k ->
  forall n, sqrtNewtonRaphson k.+2 eps n relTol <> Running.
Proof.
  move=> T k eps relTol He Hr Hk n. rewrite /sqrtNewtonRaphson.
  case: ltP => // _. case: ltP => // Hn.
  have n0 : 0 < n := lt_le_trans He Hn.
  pose s := Num.sqrt n. have s0 : 0 < s by rewrite sqrtr_gt0.
  have ss : s * s = n by rewrite -expr2 sqr_sqrtr // ltW.
  rewrite -ss [newton_loop _ _ _ _ _]/=. case: ifP => // _.
  apply: loop_stops => //; first exact: first_ge.
  set tol := Num.max _ _.
  have t1 : eps <= tol by rewrite le_maxr lexx orbT.
  have t2 : s * s * relTol <= tol by rewrite le_maxr lexx.
  have t0 : 0 < tol := lt_le_trans He t1.
  apply: (le_trans (y := 1 + s * s)).
    rewrite divr1 mul1r. apply: (le_trans (y := 2%:R^-1 * (1 + s * s))).
      by rewrite ler_subl_addr ler_addl ltW.
    rewrite ler_pimull ?addr_ge0 ?ler01 ?mulr_ge0 // ?(ltW s0) //.
    by rewrite invf_le1 ?ltr0n // ler1n.
  apply: (le_trans (y := (1 / eps + 1 / relTol) * tol)); last by rewrite ler_pmul2r.
  rewrite mulrDl. apply: ler_add.
  - by rewrite mulrAC mul1r ler_pdivl_mulr // mul1r.
  - by rewrite mulrAC mul1r ler_pdivl_mulr.
Qed.
Print Assumptions C63_terminates.

(* the root of 4 with tolerance 1: two rounds *)
Section Ex.
Variable T : rcfType.
Let F : fieldType := [fieldType of T].
Add Field ff2 : (cfield F).
Ltac side := match goal with |- _ /\ _ => split; side | _ => first [assumption | exact (@two_n0 T)] end.
Ltac fld := to_fld F; field; try side.
Example C63_nonvacuous :
  sqrtNewtonRaphson 2 (1 : T) 4%:R (1 / 4%:R) = Value (1 / 2%:R * (5%:R / 2%:R + 4%:R / (5%:R / 2%:R))).
Proof.
  rewrite /sqrtNewtonRaphson.
  have -> : (4%:R < -1 :> T) = false.
    by apply/negbTE; rewrite -leNgt (le_trans (y := 0)) ?oppr_le0 ?ler01 ?ler0n.
  have -> : (4%:R < 1 :> T) = false by apply/negbTE; rewrite -leNgt ler1n.
  have -> : 4%:R * (1 / 4%:R) = 1 :> T by rewrite mul1r divff // pnatr_eq0.
  have -> : Num.max 1 1 = 1 :> T by rewrite maxxx.
  have -> : 1 / 2%:R * (1 + 4%:R / 1) = 5%:R / 2%:R :> T by rewrite divr1; fld.
  rewrite /newton_loop.
  have -> : 5%:R / 2%:R - 1 = 1 + 1 / 2%:R :> T by fld.
  have H2 : 0 < 1 / 2%:R :> T by rewrite divr_gt0 ?ltr01 ?ltr0n.
  rewrite gtr0_norm ?addr_gt0 ?ltr01 // ltr_addl H2.
  have E4 : 4%:R = 2%:R * 2%:R :> T by fld.
  have L2 : (2%:R : T) <= 5%:R / 2%:R by rewrite ler_pdivl_mulr ?ltr0n // -natrM ler_nat.
  have P2 : (0 : T) < 2%:R by rewrite ltr0n.
  have [_ [_ H]] := step_err P2 L2. rewrite E4.
  suff -> : (1 < `|1 / 2%:R * (5%:R / 2%:R + 2%:R * 2%:R / (5%:R / 2%:R)) - 5%:R / 2%:R| :> T) = false by [].
  apply/negbTE; rewrite -leNgt. apply: (le_trans H).
  rewrite ler_subl_addr ler_pdivr_mulr ?ltr0n //.
  have -> : (1 + 2%:R) * 2%:R = 6%:R :> T by fld.
  by rewrite ler_nat.
Qed.
End Ex.

(** C63, failing part: there is no bound on the relative error: arguments in
    (0, eps) all give 0. *)
Theorem C63_relative_refuted : forall (T : rcfType) (fuel : nat) (eps relTol : T), 0 < eps ->
  forall n, 0 < n -> n < eps ->
  sqrtNewtonRaphson fuel eps n relTol = Value 0 /\
  forall delta : T, delta < 1 -> ~ `|0 - Num.sqrt n| <= delta * Num.sqrt n.
Proof.
  move=> T fuel eps relTol He n Hn Hs.
  have [_ [H _]] := C63_accuracy fuel n relTol He. split.
    apply: H => //. apply: le_trans (ltW Hn). by rewrite oppr_le0 ltW.
  move=> delta Hd. apply/negP. rewrite -ltNge sub0r normrN.
  have S : 0 < Num.sqrt n by rewrite sqrtr_gt0.
  by rewrite gtr0_norm // gtr_pmull.
Qed.
Print Assumptions C63_relative_refuted.
