(** The value estimate() computes for the expansions of two_two_diff. *)
From Coq Require Import Reals Lra Lia.
From Flocq Require Import Core Pff2Flocq Relative.
From Verif Require Import Prelude PredModel PredSpec PredProofs PredProofs2.
Open Scope R_scope.

Lemma sep_half x y : sep x y -> y <> 0 -> Rabs x < Rabs y / 2.
Proof.
  intros [->|(k & H1 & H2)] Hy.
  - rewrite Rabs_R0. pose proof (Rabs_pos_lt y Hy). lra.
  - pose proof (mul_ge _ _ H2 Hy) as H. rewrite bpow_plus in H. cbn in H. lra.
Qed.
Lemma sep_trans_add x t y : sep x t -> sep t y -> sep x y -> sep (x + t) y.
Proof.
  intros H1 H2 H3. destruct (Req_dec x 0) as [->|Hx]; [rewrite Rplus_0_l; exact H2|].
  destruct (Req_dec t 0) as [->|Ht]; [rewrite Rplus_0_r; exact H3|].
  destruct H1 as [E|(k0 & A1 & A2)]; [contradiction|]. destruct H2 as [E|(k1 & B1 & B2)]; [contradiction|].
  right. exists k1. split; [|exact B2].
  assert (Hk : (k0 + 1 <= k1)%Z).
  { pose proof (mul_ge _ _ A2 Ht) as H. apply Z.lt_le_incl. apply lt_bpow with radix2. lra. }
  assert (G : Rabs t <= bp k1 - bp (k0 + 1)).
  { assert (M : multiple (k0 + 1) (bp k1 - Rabs t)).
    { apply mul_sub; [apply mul_weaken with k1; [exact Hk|apply mul_bp]|].
      unfold Rabs. destruct (Rcase_abs t); [apply mul_opp|]; exact A2. }
    pose proof (mul_ge _ _ M ltac:(lra)) as G. rewrite Rabs_pos_eq in G by lra. lra. }
  pose proof (Rabs_triang x t). pose proof (bp_pos k0). rewrite bpow_plus in G. cbn in G. lra.
Qed.
Lemma sep_total l : nonadj l -> forall y, Forall (fun x => sep x y) l -> sep (total l) y.
Proof.
  induction l as [|x l IH]; cbn [nonadj total fold_right]; intros H y Hy; [left; reflexivity|].
  destruct H as [H1 H2]. inversion Hy as [|? ? Hxy Hly]; subst. apply sep_trans_add; [|apply IH; assumption|exact Hxy].
  clear -H1. change (sep x (total l)). induction H1 as [|z l Hz _ IH]; cbn [total fold_right]; [apply sep_0|].
  apply sep_add; assumption.
Qed.

Lemma est_ok x0 x1 x2 x3 : Forall is_double [x0; x1; x2; x3] -> nonadj [x0; x1; x2; x3] -> Rabs x2 <= u * Rabs x3 ->
  let det := estimate dbl [x0; x1; x2; x3] in
  Rabs (det - (x0 + x1 + x2 + x3)) <= 201 / 100 * u * Rabs det.
Proof.
  intros F N H2 det. unfold det, estimate. cbn [fold_left dbl fadd]. clear det.
  inversion F as [|? ? F0 F']; subst. inversion F' as [|? ? F1 F'']; subst. inversion F'' as [|? ? F2 F''']; subst. inversion F''' as [|? ? F3 _]; subst. clear F F' F'' F'''.
  cbn [nonadj] in N. destruct N as (N0 & N1 & N2 & _).
  inversion N0 as [|? ? S01 N0']; subst. inversion N0' as [|? ? S02 N0'']; subst. inversion N0'' as [|? ? S03 _]; subst.
  inversion N1 as [|? ? S12 N1']; subst. inversion N1' as [|? ? S13 _]; subst. inversion N2 as [|? ? S23 _]; subst.
  clear N0 N0' N0'' N1 N1' N2.
  pose proof (fmt_mul _ F0) as M0. pose proof (fmt_mul _ F1) as M1. pose proof (fmt_mul _ F2) as M2. pose proof (fmt_mul _ F3) as M3.
  set (q1 := rnd (x0 + x1)). set (q2 := rnd (q1 + x2)). set (d := rnd (q2 + x3)).
  assert (Mq1 : multiple (-1074) q1) by (apply fmt_mul, fmt_rnd).
  assert (Mq2 : multiple (-1074) q2) by (apply fmt_mul, fmt_rnd).
  destruct (rnd_err (x0 + x1) (mul_add _ _ _ M0 M1)) as [Ea _]. fold q1 in Ea.
  destruct (rnd_err (q1 + x2) (mul_add _ _ _ Mq1 M2)) as [Eb _]. fold q2 in Eb.
  destruct (rnd_err (q2 + x3) (mul_add _ _ _ Mq2 M3)) as [_ Ec]. fold d in Ec.
  assert (S01_2 : sep (x0 + x1) x2) by (apply sep_trans_add; assumption).
  assert (S01_3 : sep (x0 + x1) x3) by (apply sep_trans_add; assumption).
  destruct (Req_dec x3 0) as [E3|E3].
  - subst x3. rewrite Rabs_R0, Rmult_0_r in H2.
    assert (E2 : x2 = 0) by (pose proof (Rabs_pos x2); unfold Rabs in *; destruct (Rcase_abs x2); lra). subst x2.
    assert (Hq2 : q2 = q1) by (unfold q2; rewrite Rplus_0_r; apply rnd_id, fmt_rnd).
    assert (Hd : d = q1) by (unfold d; rewrite Rplus_0_r, Hq2; apply rnd_id, fmt_rnd).
    rewrite Hd. replace (q1 - (x0 + x1 + 0 + 0)) with (q1 - (x0 + x1)) by lra.
    destruct (rnd_err (x0 + x1) (mul_add _ _ _ M0 M1)) as [_ E]. fold q1 in E. pose proof u_pos. pose proof (Rabs_pos q1). nra.
  - pose proof (sep_half _ _ S01_3 E3) as G3.
    assert (T : d - (x0 + x1 + x2 + x3) = (d - (q2 + x3)) + ((q2 - (q1 + x2)) + (q1 - (x0 + x1)))) by lra.
    rewrite T. pose proof (Rabs_triang (d - (q2 + x3)) ((q2 - (q1 + x2)) + (q1 - (x0 + x1)))) as T1.
    pose proof (Rabs_triang (q2 - (q1 + x2)) (q1 - (x0 + x1))) as T2.
    assert (T3 : Rabs x3 <= Rabs (q2 + x3) + Rabs q2).
    { pose proof (Rabs_triang (q2 + x3) (- q2)) as Z. rewrite Rabs_Ropp in Z. replace (q2 + x3 + - q2) with x3 in Z by lra. exact Z. }
    assert (T4 : Rabs (q2 + x3) <= Rabs d + Rabs (d - (q2 + x3))).
    { pose proof (Rabs_triang d (- (d - (q2 + x3)))) as Z. rewrite Rabs_Ropp in Z. replace (d + - (d - (q2 + x3))) with (q2 + x3) in Z by lra. exact Z. }
    assert (T5 : Rabs q1 <= Rabs (x0 + x1) + Rabs (q1 - (x0 + x1))).
    { pose proof (Rabs_triang (x0 + x1) (q1 - (x0 + x1))) as Z. replace (x0 + x1 + (q1 - (x0 + x1))) with q1 in Z by lra. exact Z. }
    assert (T6 : Rabs q2 <= Rabs (q1 + x2) + Rabs (q2 - (q1 + x2))).
    { pose proof (Rabs_triang (q1 + x2) (q2 - (q1 + x2))) as Z. replace (q1 + x2 + (q2 - (q1 + x2))) with q2 in Z by lra. exact Z. }
    pose proof (Rabs_triang q1 x2) as T7.
    pose proof (Rabs_pos d). pose proof (Rabs_pos x3).
    destruct (Req_dec x2 0) as [E2|E2].
    + assert (Hq2 : q2 = q1) by (unfold q2; rewrite E2, Rplus_0_r; apply rnd_id, fmt_rnd).
      assert (Z : Rabs (q2 - (q1 + x2)) = 0) by (rewrite Hq2, E2; replace (q1 - (q1 + 0)) with 0 by lra; apply Rabs_R0).
      assert (Z2 : Rabs x2 = 0) by (rewrite E2; apply Rabs_R0).
      rewrite u_val in *. lra.
    + pose proof (sep_half _ _ S01_2 E2) as G2. rewrite u_val in *. lra.
Qed.
