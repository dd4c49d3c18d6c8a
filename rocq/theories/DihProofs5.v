(* Proofs for C89: the Hessian is the derivative of the gradient. *)
From Coq Require Import Reals List Lra Lia Psatz.
From Verif Require Import FricModel FricSpec FricProofs DihModel DihSpec DihProofs DihProofs2 DihProofs3 DihProofs4.
Import ListNotations.
Local Open Scope R_scope.

Lemma vec_dec (v : v3) : v = zero \/ v <> zero.
Proof.
  destruct (Req_dec (norm_sqr v) 0) as [E|E]; [left; now apply zero_of|right]. intros ->. apply E, norm_zero.
Qed.
Lemma list4 (A : Type) (a b c d a' b' c' d' : A) : a = a' -> b = b' -> c = c' -> d = d' -> [a; b; c; d] = [a'; b'; c'; d'].
Proof. now intros -> -> -> ->. Qed.
Lemma regroup p q r s d : apply (msub (madd (madd p q) r) s) d = vadd (apply p d) (apply (msub (madd q r) s) d).
Proof. rewrite !ap_sub, !ap_add. generalize (apply p d) (apply q d) (apply r d) (apply s d). intros. poly. Qed.
Lemma regroup' p q r s d : apply (madd (madd (madd p q) r) s) d = vadd (apply p d) (apply (madd (madd q r) s) d).
Proof. rewrite !ap_add. generalize (apply p d) (apply q d) (apply r d) (apply s d). intros. poly. Qed.
Lemma scal_1 v : scal 1 v = v.
Proof. apply v3_eq; unfold scal; cbn; ring. Qed.
Lemma gradient_fields v2 v0 v1 w3 : let a := vsub v1 v0 in let b := vsub v2 v0 in let g := vsub w3 v0 in
  dihedral_angle_gradient v2 v0 v1 w3 =
  [FF a b; vsub (vadd (FF a g) (KK a g)) (vadd (FF a b) (KK a b)); vsub (KK a b) (KK a g); scal (-1) (FF a g)].
Proof.
  intros a b g. unfold dihedral_angle_gradient. fold a b g.
  assert (N2 : cross g a = scal (-1) (cross a g)) by (unfold cross, scal; cbn; f_equal; ring).
  assert (Q2 : norm_sqr (scal (-1) (cross a g)) = norm_sqr (cross a g)) by (generalize (cross a g); intros; unfold norm_sqr, dot, scal; cbn; ring).
  rewrite N2, Q2. unfold FF, KK.
  assert (E3 : dot a (vsub v2 v1) = dot a b - dot a a) by (unfold a, b, dot, vsub; cbn; ring).
  assert (E4 : dot a (vsub w3 v1) = dot a g - dot a a) by (unfold a, g, dot, vsub; cbn; ring).
  rewrite E3, E4. clear E3 E4 Q2 N2. clearbody a b g.
  destruct (vec_dec a) as [->|N].
  { assert (Z : forall v, cross zero v = zero) by (intros v; unfold cross, zero; cbn; f_equal; ring).
    rewrite !Z. assert (K : forall k, scal k zero = zero) by (intros k; unfold scal, zero; cbn; f_equal; ring).
    rewrite !K. unfold vsub, vadd, zero. cbn. apply list4; f_equal; ring. }
  pose proof (norm_pos a N) as P. replace (dot a a) with (norm a * norm a) by (rewrite norm_sq; reflexivity).
  generalize dependent (norm a). intros L P. unfold Rdiv. rewrite !Rinv_mult.
  generalize (/ norm_sqr (cross a b)) (/ norm_sqr (cross a g)). intros i j.
  generalize (cross a b) (cross a g) (dot a b) (dot a g). intros x y ab ag. unfold scal, vsub, vadd. cbn.
  apply list4; f_equal; field; lra.
Qed.
Section Motion.
Variables v2 v0 v1 w3 d2 d0 d1 d3 : v3.
Let a := vsub v1 v0. Let b := vsub v2 v0. Let g := vsub w3 v0.
Let da := vsub d1 d0. Let db := vsub d2 d0. Let dg := vsub d3 d0.
Hypothesis N1 : cross (vsub v0 v2) (vsub v1 v2) <> zero.
Hypothesis N2 : cross (vsub v1 w3) (vsub v0 w3) <> zero.
Lemma n1_ab : cross a b <> zero.
Proof. replace (cross a b) with (cross (vsub v0 v2) (vsub v1 v2)) by (unfold a, b, cross, vsub; cbn; f_equal; ring). exact N1. Qed.
Lemma n2_ag : cross a g <> zero.
Proof.
  intros C. apply N2. replace (cross (vsub v1 w3) (vsub v0 w3)) with (scal (-1) (cross a g)) by (unfold a, g, cross, vsub, scal; cbn; f_equal; ring).
  rewrite C. unfold scal, zero. cbn. f_equal; ring.
Qed.
Let ta t := vsub (moved v1 d1 t) (moved v0 d0 t).
Let tb t := vsub (moved v2 d2 t) (moved v0 d0 t).
Let tg t := vsub (moved w3 d3 t) (moved v0 d0 t).
Lemma moved_0 v d : moved v d 0 = v.
Proof. apply at_0. Qed.
Lemma ta_0 : ta 0 = a. Proof. unfold ta. now rewrite !moved_0. Qed.
Lemma tb_0 : tb 0 = b. Proof. unfold tb. now rewrite !moved_0. Qed.
Lemma tg_0 : tg 0 = g. Proof. unfold tg. now rewrite !moved_0. Qed.
Lemma dta : dv ta da. Proof. apply dv_sub; apply dv_lin. Qed.
Lemma dtb : dv tb db. Proof. apply dv_sub; apply dv_lin. Qed.
Lemma dtg : dv tg dg. Proof. apply dv_sub; apply dv_lin. Qed.
Lemma F1 : dv (fun t => FF (ta t) (tb t)) (vadd (Fa a b da) (Fb a b db)).
Proof. pose proof (dFF ta tb da db dta dtb) as H. rewrite ta_0, tb_0 in H. exact (H n1_ab). Qed.
Lemma K1 : dv (fun t => KK (ta t) (tb t)) (vadd (Ka a b da) (Kb a b db)).
Proof. pose proof (dKK ta tb da db dta dtb) as H. rewrite ta_0, tb_0 in H. exact (H n1_ab). Qed.
Lemma F2 : dv (fun t => FF (ta t) (tg t)) (vadd (Fa a g da) (Fb a g dg)).
Proof. pose proof (dFF ta tg da dg dta dtg) as H. rewrite ta_0, tg_0 in H. exact (H n2_ag). Qed.
Lemma K2 : dv (fun t => KK (ta t) (tg t)) (vadd (Ka a g da) (Kb a g dg)).
Proof. pose proof (dKK ta tg da dg dta dtg) as H. rewrite ta_0, tg_0 in H. exact (H n2_ag). Qed.

(* the derivatives are linear in the direction *)
Lemma dot_subr u v w : dot u (vsub v w) = dot u v - dot u w.
Proof. unfold dot, vsub. cbn. ring. Qed.
Ltac linear f := unfold f; rewrite !dot_subr;
  match goal with |- context [scal ?k _] => generalize k; intro end;
  unfold scal, vadd, vsub; cbn; f_equal; ring.
Lemma Fa_sub x y v w : Fa x y (vsub v w) = vsub (Fa x y v) (Fa x y w). Proof. linear Fa. Qed.
Lemma Fb_sub x y v w : Fb x y (vsub v w) = vsub (Fb x y v) (Fb x y w). Proof. linear Fb. Qed.
Lemma Ka_sub x y v w : Ka x y (vsub v w) = vsub (Ka x y v) (Ka x y w). Proof. linear Ka. Qed.
Lemma Kb_sub x y v w : Kb x y (vsub v w) = vsub (Kb x y v) (Kb x y w). Proof. linear Kb. Qed.

Lemma hessian_blocks : dihedral_angle_hessian v2 v0 v1 w3 =
  let T1 f := f v0 v1 v2 1 : m3 in let T2 f := f v0 v1 w3 (-1) : m3 in
  let H12 := madd (madd (madd (madd (madd (T1 M3_1) (transpose (T1 M1_3))) (T1 BB)) (T2 M3_1)) (transpose (T2 M1_3))) (T2 BB) in
  [[mneg (madd (T1 N_01) (transpose (T1 N_01))); transpose (msub (T1 M3_01) (T1 N_3)); transpose (msub (T1 M1_01) (T1 N_1)); mzero];
   [msub (T1 M3_01) (T1 N_3);
    msub (madd (madd (msub (madd (T1 M3_3) (transpose (T1 M3_3))) (T1 BB)) (T2 M3_3)) (transpose (T2 M3_3))) (T2 BB);
    H12; msub (T2 M3_01) (T2 N_3)];
   [msub (T1 M1_01) (T1 N_1); transpose H12;
    msub (madd (madd (msub (madd (T1 M1_1) (transpose (T1 M1_1))) (T1 BB)) (T2 M1_1)) (transpose (T2 M1_1))) (T2 BB);
    msub (T2 M1_01) (T2 N_1)];
   [mzero; transpose (msub (T2 M3_01) (T2 N_3)); transpose (msub (T2 M1_01) (T2 N_1)); mneg (madd (T2 N_01) (transpose (T2 N_01)))]].
Proof.
  unfold dihedral_angle_hessian.
  replace (cross (vsub v1 v0) (vsub v2 v0)) with (scal 1 (cross (vsub v1 v0) (vsub v2 v0))) by apply scal_1.
  replace (cross (vsub w3 v0) (vsub v1 v0)) with (scal (-1) (cross (vsub v1 v0) (vsub w3 v0))) by (unfold cross, scal; cbn; f_equal; ring).
  reflexivity.
Qed.
Lemma rows : forall I, (I < 4)%nat ->
  dv (fun t => nth I (dihedral_angle_gradient (moved v2 d2 t) (moved v0 d0 t) (moved v1 d1 t) (moved w3 d3 t)) zero)
     (apply_row (nth I (dihedral_angle_hessian v2 v0 v1 w3) []) [d2; d0; d1; d3]).
Proof.
  intros I HI. rewrite hessian_blocks. cbn zeta.
  assert (S1 : 1 * 1 = 1) by ring. assert (S2 : (-1) * (-1) = 1) by ring.
  pose proof n1_ab as Z1. pose proof n2_ag as Z2.
  pose proof F1 as DF1. pose proof F2 as DF2. pose proof K1 as DK1. pose proof K2 as DK2.
  destruct I as [|[|[|[|I]]]]; [| | | |lia]; cbn [nth apply_row].
  - (* v2 *)
    eapply dv_ext; [intros t; cbn beta; rewrite gradient_fields; reflexivity| |exact DF1].
    rewrite block_ww, block_w1, block_w0, ap_zero by assumption. fold a b. unfold da, db. rewrite Fa_sub, Fb_sub.
    generalize (Fa a b d1) (Fa a b d0) (Fb a b d2) (Fb a b d0). intros. unfold scal, vadd, vsub, zero. cbn. f_equal; ring.
  - (* v0 *)
    eapply dv_ext; [intros t; cbn beta; rewrite gradient_fields; reflexivity| |exact (dv_sub _ _ _ _ (dv_add _ _ _ _ DF2 DK2) (dv_add _ _ _ _ DF1 DK1))].
    rewrite regroup, regroup'. rewrite !block_0w, !block_00, !block_01 by assumption.
    fold a b g. unfold da, db, dg. rewrite !Fa_sub, !Fb_sub, !Ka_sub, !Kb_sub.
    generalize (Fa a b d1) (Fa a b d0) (Fb a b d2) (Fb a b d0) (Fa a g d1) (Fa a g d0) (Fb a g d3) (Fb a g d0).
    generalize (Ka a b d1) (Ka a b d0) (Kb a b d2) (Kb a b d0) (Ka a g d1) (Ka a g d0) (Kb a g d3) (Kb a g d0).
    intros. unfold scal, vadd, vsub, zero. cbn. f_equal; ring.
  - (* v1 *)
    eapply dv_ext; [intros t; cbn beta; rewrite gradient_fields; reflexivity| |exact (dv_sub _ _ _ _ DK1 DK2)].
    rewrite regroup. rewrite !block_1w, !block_11 by assumption.
    assert (T : apply (transpose (madd (madd (madd (madd (madd (M3_1 v0 v1 v2 1) (transpose (M1_3 v0 v1 v2 1))) (BB v0 v1 v2 1))
        (M3_1 v0 v1 w3 (-1))) (transpose (M1_3 v0 v1 w3 (-1)))) (BB v0 v1 w3 (-1)))) d0 =
      vadd (scal (-(1)) (vadd (Ka a b d0) (Kb a b d0))) (scal (- -1) (vadd (Ka a g d0) (Kb a g d0)))).
    { pose proof (block_10 v0 v1 v2 1 S1 Z1 d0) as B1. pose proof (block_10 v0 v1 w3 (-1) S2 Z2 d0) as B2.
      pose proof (antisym v0 v1 v2 1 S1 Z1 d0) as A1. pose proof (antisym v0 v1 w3 (-1) S2 Z2 d0) as A2.
      fold a b in B1, A1. fold a g in B2, A2. rewrite <- B1, <- B2. rewrite !tr_add, !tr_tr, !ap_add.
      assert (A3 : vadd (apply (transpose (BB v0 v1 v2 1)) d0) (apply (transpose (BB v0 v1 w3 (-1))) d0) =
                   vadd (apply (BB v0 v1 v2 1) d0) (apply (BB v0 v1 w3 (-1)) d0)).
      { transitivity (vadd (vadd (vsub (apply (transpose (BB v0 v1 v2 1)) d0) (apply (BB v0 v1 v2 1) d0)) (vsub (apply (transpose (BB v0 v1 w3 (-1))) d0) (apply (BB v0 v1 w3 (-1)) d0)))
          (vadd (apply (BB v0 v1 v2 1) d0) (apply (BB v0 v1 w3 (-1)) d0))).
        - generalize (apply (transpose (BB v0 v1 v2 1)) d0) (apply (transpose (BB v0 v1 w3 (-1))) d0) (apply (BB v0 v1 v2 1) d0) (apply (BB v0 v1 w3 (-1)) d0). intros. poly.
        - rewrite A1, A2. generalize (apply (BB v0 v1 v2 1) d0) (apply (BB v0 v1 w3 (-1)) d0) (cross a d0). intros. unfold vadd, scal, Rdiv. cbn. f_equal; ring. }
      revert A3. generalize (apply (transpose (BB v0 v1 v2 1)) d0) (apply (transpose (BB v0 v1 w3 (-1))) d0) (apply (BB v0 v1 v2 1) d0) (apply (BB v0 v1 w3 (-1)) d0).
      generalize (apply (transpose (M3_1 v0 v1 v2 1)) d0) (apply (M1_3 v0 v1 v2 1) d0) (apply (transpose (M3_1 v0 v1 w3 (-1))) d0) (apply (M1_3 v0 v1 w3 (-1)) d0).
      intros x1 x2 x3 x4 y1 y2 y3 y4 A3. unfold vadd in A3. injection A3 as E1 E2 E3.
      unfold vadd. cbn. f_equal; lra. }
    rewrite T. fold a b g. unfold da, db, dg. rewrite !Ka_sub, !Kb_sub.
    generalize (Ka a b d1) (Ka a b d0) (Kb a b d2) (Kb a b d0) (Ka a g d1) (Ka a g d0) (Kb a g d3) (Kb a g d0).
    intros. unfold scal, vadd, vsub, zero. cbn. f_equal; ring.
  - (* v3 *)
    eapply dv_ext; [intros t; cbn beta; rewrite gradient_fields; reflexivity| |].
    2: { apply (dv_scal (fun _ => -1) (fun t => FF (ta t) (tg t)) 0); [apply derivable_pt_lim_const|exact DF2]. }
    cbn beta. rewrite block_ww, block_w1, block_w0, ap_zero by assumption. fold a g. unfold da, dg. rewrite Fa_sub, Fb_sub.
    generalize (Fa a g d1) (Fa a g d0) (Fb a g d3) (Fb a g d0) (FF (ta 0) (tg 0)). intros. unfold scal, vadd, vsub, zero. cbn. f_equal; ring.
Qed.
Lemma b_sum : madd (BB v0 v1 v2 1) (BB v0 v1 w3 (-1)) = transpose (madd (BB v0 v1 v2 1) (BB v0 v1 w3 (-1))).
Proof.
  assert (S1 : 1 * 1 = 1) by ring. assert (S2 : (-1) * (-1) = 1) by ring.
  pose proof (fun d => antisym v0 v1 v2 1 S1 n1_ab d) as A1. pose proof (fun d => antisym v0 v1 w3 (-1) S2 n2_ag d) as A2.
  assert (K : forall d, apply (madd (BB v0 v1 v2 1) (BB v0 v1 w3 (-1))) d = apply (transpose (madd (BB v0 v1 v2 1) (BB v0 v1 w3 (-1)))) d).
  { intros d. specialize (A1 d). specialize (A2 d). rewrite tr_add, !ap_add. revert A1 A2.
    generalize (apply (transpose (BB v0 v1 v2 1)) d) (apply (transpose (BB v0 v1 w3 (-1))) d) (apply (BB v0 v1 v2 1) d) (apply (BB v0 v1 w3 (-1)) d).
    generalize (cross (vsub v1 v0) d) (norm (vsub v1 v0)). intros c L t1 t2 u1 u2 A1 A2.
    unfold vsub, scal, Rdiv in A1, A2. injection A1 as A11 A12 A13. injection A2 as A21 A22 A23. unfold vadd. f_equal; lra. }
  revert K. generalize (madd (BB v0 v1 v2 1) (BB v0 v1 w3 (-1))). intros [[] [] []] K.
  pose proof (K (V3 1 0 0)) as X. pose proof (K (V3 0 1 0)) as Y. pose proof (K (V3 0 0 1)) as Z.
  unfold apply, transpose, dot in *. cbn in *. injection X as X1 X2 X3. injection Y as Y1 Y2 Y3. injection Z as Z1 Z2 Z3.
  unfold transpose. cbn. f_equal; f_equal; lra.
Qed.
End Motion.
