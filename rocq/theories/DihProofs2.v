(* Proofs for C89: the derivative of the angle. *)
From Coq Require Import Reals List Lra Lia Psatz.
From Verif Require Import FricModel FricSpec FricProofs DihModel DihProofs.
Import ListNotations.
Local Open Scope R_scope.

Definition det (g a b : v3) : R := dot (cross g a) b.
Lemma split_b a b g db : - dot (cross a b) (cross g a) * det g a db * dot a a + det g a b * dot (cross a db) (cross g a) * dot a a
  = - dot a a * norm_sqr (cross g a) * dot (cross a b) db.
Proof. unfold det, norm_sqr, dot, cross. cbn. ring. Qed.
Lemma split_g a b g dg : - dot (cross a b) (cross g a) * det dg a b * dot a a + det g a b * dot (cross a b) (cross dg a) * dot a a
  = - dot a a * norm_sqr (cross a b) * dot (cross g a) dg.
Proof. unfold det, norm_sqr, dot, cross. cbn. ring. Qed.
Lemma split_a a b g da : - dot (cross a b) (cross g a) * det g da b * dot a a - dot (cross a b) (cross g a) * det g a b * dot a da
  + det g a b * (dot (cross da b) (cross g a) + dot (cross a b) (cross g da)) * dot a a
  = dot a b * norm_sqr (cross g a) * dot (cross a b) da + dot a g * norm_sqr (cross a b) * dot (cross g a) da.
Proof. unfold det, norm_sqr, dot, cross. cbn. ring. Qed.
Section Motion.
Variables v2 v0 v1 w3 d2 d0 d1 d3 : v3.
Let at2 t := vadd v2 (scal t d2).
Let at0 t := vadd v0 (scal t d0).
Let at1 t := vadd v1 (scal t d1).
Let at3 t := vadd w3 (scal t d3).
Let n1 t := cross (vsub (at0 t) (at2 t)) (vsub (at1 t) (at2 t)).
Let n2 t := cross (vsub (at1 t) (at3 t)) (vsub (at0 t) (at3 t)).
Let e t := vsub (at0 t) (at1 t).
Let a := vsub v1 v0. Let b := vsub v2 v0. Let g := vsub w3 v0.
Let da := vsub d1 d0. Let db := vsub d2 d0. Let dg := vsub d3 d0.
Let m1 := vadd (cross da b) (cross a db).
Let m2 := vadd (cross dg a) (cross g da).
Hypothesis N1 : cross (vsub v0 v2) (vsub v1 v2) <> zero.
Hypothesis N2 : cross (vsub v1 w3) (vsub v0 w3) <> zero.
Hypothesis NP : dihedral_angle v2 v0 v1 w3 <> PI.

Ltac comp := unfold n1, n2, e, at0, at1, at2, at3, m1, m2, a, b, g, da, db, dg, cross, vsub, vadd, scal; cbn; f_equal; ring.
Lemma n1_0 : n1 0 = cross a b. Proof. comp. Qed.
Lemma n2_0 : n2 0 = cross g a. Proof. comp. Qed.
Lemma e_0 : e 0 = scal (-1) a. Proof. comp. Qed.
Lemma at_0 v d : vadd v (scal 0 d) = v.
Proof. destruct v. unfold vadd, scal. cbn. f_equal; ring. Qed.
Lemma dn1 : dv n1 m1.
Proof.
  replace m1 with (vadd (cross (vsub d0 d2) (vsub (at1 0) (at2 0))) (cross (vsub (at0 0) (at2 0)) (vsub d1 d2))) by comp.
  apply (dv_cross (fun t => vsub (at0 t) (at2 t)) (fun t => vsub (at1 t) (at2 t))); apply dv_sub; apply dv_lin.
Qed.
Lemma dn2 : dv n2 m2.
Proof.
  replace m2 with (vadd (cross (vsub d1 d3) (vsub (at0 0) (at3 0))) (cross (vsub (at1 0) (at3 0)) (vsub d0 d3))) by comp.
  apply (dv_cross (fun t => vsub (at1 t) (at3 t)) (fun t => vsub (at0 t) (at3 t))); apply dv_sub; apply dv_lin.
Qed.
Lemma de : dv e (scal (-1) da).
Proof.
  replace (scal (-1) da) with (vsub d0 d1) by (unfold da, scal, vsub; cbn; f_equal; ring).
  apply dv_sub; apply dv_lin.
Qed.
Lemma n1_nz : n1 0 <> zero. Proof. unfold n1, at0, at1, at2. now rewrite !at_0. Qed.
Lemma n2_nz : n2 0 <> zero. Proof. unfold n2, at0, at1, at3. now rewrite !at_0. Qed.
Lemma e_nz : e 0 <> zero.
Proof. unfold e, at0, at1. rewrite !at_0. exact (edge_nz v2 v0 v1 N1). Qed.

Let c t := dot (n1 t) (n2 t).
Let s t := dot (cross (n2 t) (n1 t)) (e t).
Let C t := c t / (norm (n1 t) * norm (n2 t)).
Let S t := s t / (norm (n1 t) * norm (n2 t) * norm (e t)).
Lemma angle_derivative :
  derivable_pt_lim (fun t => dihedral_angle (at2 t) (at0 t) (at1 t) (at3 t)) 0
    (pair_dot (dihedral_angle_gradient v2 v0 v1 w3) [d2; d0; d1; d3]).
Proof.
  pose proof dn1 as D1. pose proof dn2 as D2. pose proof de as D3.
  set (A := norm (n1 0)). set (B := norm (n2 0)). set (L := norm (e 0)).
  assert (PA : 0 < A) by (apply norm_pos, n1_nz). assert (PB : 0 < B) by (apply norm_pos, n2_nz). assert (PL : 0 < L) by (apply norm_pos, e_nz).
  pose proof (d_norm _ _ D1 n1_nz) as DA. fold A in DA. set (A' := _ / A) in DA.
  pose proof (d_norm _ _ D2 n2_nz) as DB. fold B in DB. set (B' := _ / B) in DB.
  pose proof (d_norm _ _ D3 e_nz) as DL. fold L in DL. set (L' := _ / L) in DL.
  pose proof (d_dot _ _ _ _ D1 D2) as Dc. set (c' := dot m1 _ + _) in Dc. fold c in Dc.
  pose proof (d_dot _ _ _ _ (dv_cross _ _ _ _ D2 D1) D3) as Ds. set (s' := dot _ (e 0) + _) in Ds. fold s in Ds.
  assert (DC : derivable_pt_lim C 0 ((c' * (A * B) - (A' * B + A * B') * c 0) / Rsqr (A * B))).
  { apply (derivable_pt_lim_div c (fun t => norm (n1 t) * norm (n2 t))); [exact Dc| |fold A B; nra].
    exact (d_mult _ _ _ _ DA DB). }
  assert (DS : derivable_pt_lim S 0 ((s' * (A * B * L) - ((A' * B + A * B') * L + A * B * L') * s 0) / Rsqr (A * B * L))).
  { apply (derivable_pt_lim_div s (fun t => norm (n1 t) * norm (n2 t) * norm (e t))); [exact Ds| |fold A B L; assert (0 < A * B) by nra; nra].
    exact (d_mult _ _ _ _ (d_mult _ _ _ _ DA DB) DL). }
  assert (near0 : exists d, 0 < d /\ forall t, Rabs (t - 0) < d ->
     - PI < dihedral_angle (at2 t) (at0 t) (at1 t) (at3 t) < PI /\ cos (dihedral_angle (at2 t) (at0 t) (at1 t) (at3 t)) = C t /\
     sin (dihedral_angle (at2 t) (at0 t) (at1 t) (at3 t)) = S t).
  { destruct (stays_nz _ _ D1 n1_nz) as (k1 & K1 & H1). destruct (stays_nz _ _ D2 n2_nz) as (k2 & K2 & H2).
    assert (C0 : 0 < 1 + C 0).
    { destruct (angle_value (at2 0) (at0 0) (at1 0) (at3 0) n1_nz n2_nz) as (R0 & Q & _). change (cos (dihedral_angle (at2 0) (at0 0) (at1 0) (at3 0)) = C 0) in Q.
      unfold at2, at0, at1, at3 in R0, Q. rewrite !at_0 in R0, Q. rewrite <- Q.
      set (th := dihedral_angle v2 v0 v1 w3) in *. assert (G : 0 < cos (th / 2)) by (apply cos_gt_0; lra).
      replace th with (2 * (th / 2)) by field. rewrite cos_2a_cos. nra. }
    destruct (stays (fun t => 1 + C t) _ (d_plus (fun _ => 1) C _ _ (derivable_pt_lim_const 1 0) DC) C0) as (k3 & K3 & H3).
    exists (Rmin k1 (Rmin k2 k3)). split; [repeat apply Rmin_pos; auto|]. intros t Ht.
    pose proof (Rmin_l k1 (Rmin k2 k3)). pose proof (Rmin_r k1 (Rmin k2 k3)). pose proof (Rmin_l k2 k3). pose proof (Rmin_r k2 k3).
    destruct (angle_value (at2 t) (at0 t) (at1 t) (at3 t)) as (R0 & Q & Q'); [apply H1; lra|apply H2; lra|].
    assert (Ct : 0 < 1 + C t) by (apply H3; lra).
    split; [|split; [exact Q|exact Q']]. split; [lra|]. destruct (Rle_lt_or_eq_dec _ _ (proj2 R0)) as [|F]; [assumption|].
    exfalso. change (cos (dihedral_angle (at2 t) (at0 t) (at1 t) (at3 t)) = C t) in Q. rewrite F, cos_PI in Q. lra. }
  eapply dext; [reflexivity| |apply (d_angle _ C S _ _ near0 DC DS)].
  assert (QL : L * L = dot a a).
  { unfold L. rewrite norm_sq, e_0. unfold norm_sqr, dot, scal. cbn. ring. }
  assert (QA : A * A = norm_sqr (cross a b)) by (unfold A; now rewrite norm_sq, n1_0).
  assert (QB : B * B = norm_sqr (cross g a)) by (unfold B; now rewrite norm_sq, n2_0).
  assert (V : C 0 * ((s' * (A * B * L) - ((A' * B + A * B') * L + A * B * L') * s 0) / Rsqr (A * B * L)) -
     S 0 * ((c' * (A * B) - (A' * B + A * B') * c 0) / Rsqr (A * B)) =
     (c 0 * s' * (L * L) - c 0 * s 0 * (L * L') - s 0 * c' * (L * L)) / (A * A * (B * B) * (L * L * L))).
  { unfold C, S, Rsqr. fold A B L. field. repeat split; lra. }
  rewrite V. clear V.
  assert (LL : L * L' = dot a da).
  { unfold L'. rewrite e_0. replace (L * (dot (scal (-1) a) (scal (-1) da) / L)) with (dot (scal (-1) a) (scal (-1) da)) by (field; lra).
    unfold dot, scal. cbn. ring. }
  set (D := det g a b). set (D' := det dg a b + det g da b + det g a db).
  assert (Ec : c 0 = dot (cross a b) (cross g a)) by (unfold c; now rewrite n1_0, n2_0).
  assert (Es : s 0 = - D * (L * L)).
  { unfold s. rewrite n1_0, n2_0, e_0, QL. unfold D, det, dot, cross, scal. cbn. ring. }
  assert (Ec' : c' = (dot (cross da b) (cross g a) + dot (cross a b) (cross g da)) + dot (cross a db) (cross g a) + dot (cross a b) (cross dg a)).
  { unfold c'. rewrite n1_0, n2_0. unfold m1, m2, dot, cross, vadd. cbn. ring. }
  assert (Es' : s' = - D' * (L * L) - 2 * D * (L * L')).
  { unfold s'. rewrite n1_0, n2_0, e_0, QL, LL. unfold D, D', det, m1, m2, dot, cross, vadd, scal. cbn. ring. }
  assert (P : c 0 * s' * (L * L) - c 0 * s 0 * (L * L') - s 0 * c' * (L * L) =
     L * L * (- (L * L) * (B * B) * dot (cross a b) db + (dot a b * (B * B) * dot (cross a b) da + dot a g * (A * A) * dot (cross g a) da)
       - (L * L) * (A * A) * dot (cross g a) dg)).
  { rewrite Es, Es'. 
    transitivity (L * L * (- c 0 * D' * (L * L) - c 0 * D * (L * L') + D * c' * (L * L))); [ring|]. f_equal.
    rewrite Ec, Ec', LL, QL, QA, QB. unfold D, D'.
    pose proof (split_b a b g db) as S1. pose proof (split_g a b g dg) as S2. pose proof (split_a a b g da) as S3.
    transitivity ((- dot (cross a b) (cross g a) * det g a db * dot a a + det g a b * dot (cross a db) (cross g a) * dot a a)
      + (- dot (cross a b) (cross g a) * det dg a b * dot a a + det g a b * dot (cross a b) (cross dg a) * dot a a)
      + (- dot (cross a b) (cross g a) * det g da b * dot a a - dot (cross a b) (cross g a) * det g a b * dot a da
  + det g a b * (dot (cross da b) (cross g a) + dot (cross a b) (cross g da)) * dot a a)); [ring|].
    rewrite S1, S2, S3. ring. }
  rewrite P. clear P.
  unfold dihedral_angle_gradient. fold a b g. cbn [pair_dot].
  assert (NL : norm a = L).
  { unfold L, norm. f_equal. rewrite e_0. unfold norm_sqr, dot, scal. cbn. ring. }
  rewrite NL, <- QA, <- QB.
  assert (E3 : dot a (vsub v2 v1) = dot a b - L * L) by (rewrite QL; unfold a, b, dot, vsub; cbn; ring).
  assert (E4 : dot a (vsub w3 v1) = dot a g - L * L) by (rewrite QL; unfold a, g, dot, vsub; cbn; ring).
  rewrite E3, E4.
  set (x1 := cross a b). set (x2 := cross g a).
  assert (B1 : forall k v w, dot (scal k v) w = k * dot v w) by (intros; unfold dot, scal; cbn; ring).
  assert (B2 : forall u v w, dot (vadd u v) w = dot u w + dot v w) by (intros; unfold dot, vadd; cbn; ring).
  assert (B3 : forall u v w, dot (vsub u v) w = dot u w - dot v w) by (intros; unfold dot, vsub; cbn; ring).
  assert (B4 : forall u v w, dot u (vsub v w) = dot u v - dot u w) by (intros; unfold dot, vsub; cbn; ring).
  unfold da, db, dg. rewrite B2, B3, !B1, !B4. field. repeat split; lra.
Qed.
End Motion.
