(* Proofs for C89. *)
From Coq Require Import Reals List Lra Lia Psatz.
From Verif Require Import FricModel FricSpec FricProofs DihModel.
Import ListNotations.
Local Open Scope R_scope.

(* an angle below pi is given by its sine and cosine *)
Lemma half_angle th : - PI < th < PI -> th = 2 * atan (sin th / (1 + cos th)).
Proof.
  intros H. assert (C : 0 < cos (th / 2)) by (apply cos_gt_0; lra).
  assert (E : sin th / (1 + cos th) = tan (th / 2)).
  { replace (sin th) with (sin (2 * (th / 2))) by (f_equal; field). replace (cos th) with (cos (2 * (th / 2))) by (f_equal; field).
    rewrite sin_2a, cos_2a_cos. unfold tan. field. split; [lra|]. nra. }
  rewrite E, atan_tan; lra.
Qed.
Lemma angle_unique th th' : - PI < th <= PI -> - PI < th' <= PI -> cos th = cos th' -> sin th = sin th' -> th = th'.
Proof.
  intros H H' C S. pose proof PI_RGT_0.
  assert (K : forall a, - PI < a <= PI -> a = PI \/ - PI < a < PI) by (intros; lra).
  assert (Z : forall a, - PI < a < PI -> cos a <> -1).
  { intros a Ha E. assert (C2 : 0 < cos (a / 2)) by (apply cos_gt_0; lra).
    replace a with (2 * (a / 2)) in E by field. rewrite cos_2a_cos in E. nra. }
  destruct (K th H) as [->|A], (K th' H') as [->|B]; auto.
  - exfalso. apply (Z th' B). rewrite <- C. apply cos_PI.
  - exfalso. apply (Z th A). rewrite C. apply cos_PI.
  - rewrite (half_angle th A), (half_angle th' B). now rewrite C, S.
Qed.
(* derivative of an angle *)
Lemma d_angle th C S c s : (exists d, 0 < d /\ forall t, Rabs (t - 0) < d -> - PI < th t < PI /\ cos (th t) = C t /\ sin (th t) = S t) ->
  derivable_pt_lim C 0 c -> derivable_pt_lim S 0 s -> derivable_pt_lim th 0 (C 0 * s - S 0 * c).
Proof.
  intros (d & Hd & H) DC DS. destruct (H 0) as (H0 & HC & HS); [rewrite Rminus_diag_eq, Rabs_R0; auto|].
  assert (U : forall t, Rabs (t - 0) < d -> C t * C t + S t * S t = 1).
  { intros t Ht. destruct (H t Ht) as (_ & <- & <-). pose proof (sin2_cos2 (th t)) as Q. unfold Rsqr in Q. lra. }
  assert (U0 : C 0 * C 0 + S 0 * S 0 = 1) by (apply U; rewrite Rminus_diag_eq, Rabs_R0; auto).
  assert (O : C 0 * c + S 0 * s = 0).
  { assert (D1 : derivable_pt_lim (fun t => C t * C t + S t * S t) 0 ((c * C 0 + C 0 * c) + (s * S 0 + S 0 * s))).
    { apply (derivable_pt_lim_plus (fun t => C t * C t) (fun t => S t * S t)); [now apply (derivable_pt_lim_mult C C)|now apply (derivable_pt_lim_mult S S)]. }
    assert (D2 : derivable_pt_lim (fun t => C t * C t + S t * S t) 0 0).
    { apply (near _ (fun _ => 1) 0 0 d Hd U). apply derivable_pt_lim_const. }
    pose proof (uniqueness_limite _ _ _ _ D1 D2). lra. }
  assert (P : 0 < 1 + C 0).
  { rewrite <- HC. assert (C2 : 0 < cos (th 0 / 2)) by (apply cos_gt_0; lra).
    replace (th 0) with (2 * (th 0 / 2)) by field. rewrite cos_2a_cos. nra. }
  apply (near _ (fun t => 2 * atan (S t / (1 + C t))) 0 _ d Hd).
  { intros t Ht. destruct (H t Ht) as (A & <- & <-). now apply half_angle. }
  assert (DQ : derivable_pt_lim (fun t => S t / (1 + C t)) 0 ((s * (1 + C 0) - (0 + c) * S 0) / Rsqr (1 + C 0))).
  { apply (derivable_pt_lim_div S (fun t => 1 + C t)); [exact DS| |lra].
    apply (derivable_pt_lim_plus (fun _ => 1) C); [apply derivable_pt_lim_const|exact DC]. }
  eapply dext; [reflexivity| |apply (derivable_pt_lim_scal (fun t => atan (S t / (1 + C t))));
    apply (derivable_pt_lim_comp (fun t => S t / (1 + C t)) atan); [exact DQ|apply derivable_pt_lim_atan]].
  assert (E : 1 + (S 0 / (1 + C 0)) ^ 2 = 2 / (1 + C 0)).
  { cbn [pow]. rewrite Rmult_1_r. replace (S 0 / (1 + C 0) * (S 0 / (1 + C 0))) with (S 0 * S 0 / ((1 + C 0) * (1 + C 0))) by (field; lra).
    replace (S 0 * S 0) with ((1 - C 0) * (1 + C 0)) by lra. field. lra. }
  rewrite E. unfold Rsqr.
  replace (2 * (/ (2 / (1 + C 0)) * ((s * (1 + C 0) - (0 + c) * S 0) / ((1 + C 0) * (1 + C 0)))))
    with ((s + (C 0 * s - S 0 * c)) / (1 + C 0)) by (field; lra).
  assert (K : s = C 0 * (C 0 * s - S 0 * c)).
  { replace (C 0 * (C 0 * s - S 0 * c)) with (C 0 * C 0 * s - S 0 * (C 0 * c)) by ring.
    replace (C 0 * c) with (- (S 0 * s)) by lra. replace (C 0 * C 0) with (1 - S 0 * S 0) by lra. ring. }
  apply (Rmult_eq_reg_r (1 + C 0)); [|lra]. replace ((s + (C 0 * s - S 0 * c)) / (1 + C 0) * (1 + C 0)) with (s + (C 0 * s - S 0 * c)) by (field; lra). lra.
Qed.

(* the angle by its sine and cosine *)
Section Angle.
Variables v2 v0 v1 w3 : v3.
Let n1 := cross (vsub v0 v2) (vsub v1 v2).
Let n2 := cross (vsub v1 w3) (vsub v0 w3).
Let e := vsub v0 v1.
Hypothesis N1 : n1 <> zero.
Hypothesis N2 : n2 <> zero.
Lemma edge_nz : e <> zero.
Proof.
  intros E. apply N1. unfold n1, e in *. injection E as E1 E2 E3.
  unfold cross, vsub, zero. cbn. f_equal.
  - replace (vy v0) with (vy v1) by lra. replace (vz v0) with (vz v1) by lra. ring.
  - replace (vx v0) with (vx v1) by lra. replace (vz v0) with (vz v1) by lra. ring.
  - replace (vx v0) with (vx v1) by lra. replace (vy v0) with (vy v1) by lra. ring.
Qed.
Lemma unit_circle : dot n1 n2 * dot n1 n2 * norm_sqr e + dot (cross n2 n1) e * dot (cross n2 n1) e = norm_sqr n1 * norm_sqr n2 * norm_sqr e.
Proof. unfold n1, n2, e, norm_sqr, dot, cross, vsub. cbn. ring. Qed.
Definition cosine := dot n1 n2 / (norm n1 * norm n2).
Definition sine := dot (cross n2 n1) e / (norm n1 * norm n2 * norm e).
Lemma norm_sq v : norm v * norm v = norm_sqr v.
Proof. apply sqrt_sqrt, norm_sqr_nonneg. Qed.
Lemma circle : cosine * cosine + sine * sine = 1.
Proof.
  pose proof (norm_pos _ N1) as P1. pose proof (norm_pos _ N2) as P2. pose proof (norm_pos _ edge_nz) as P3.
  pose proof unit_circle as U. rewrite <- !norm_sq in U.
  unfold cosine, sine.
  replace (dot n1 n2 / (norm n1 * norm n2) * (dot n1 n2 / (norm n1 * norm n2)) +
     dot (cross n2 n1) e / (norm n1 * norm n2 * norm e) * (dot (cross n2 n1) e / (norm n1 * norm n2 * norm e)))
   with ((dot n1 n2 * dot n1 n2 * (norm e * norm e) + dot (cross n2 n1) e * dot (cross n2 n1) e) / (norm n1 * norm n1 * (norm n2 * norm n2) * (norm e * norm e)))
   by (field; repeat split; lra).
  rewrite U. field. repeat split; lra.
Qed.
Lemma angle_value : let th := dihedral_angle v2 v0 v1 w3 in
  - PI < th <= PI /\ cos th = cosine /\ sin th = sine.
Proof.
  pose proof (norm_pos _ N1) as P1. pose proof (norm_pos _ N2) as P2. pose proof (norm_pos _ edge_nz) as P3.
  pose proof circle as U. unfold dihedral_angle. fold n1 n2 e. cbn zeta.
  assert (E : dot n1 n2 / sqrt (norm_sqr n1 * norm_sqr n2) = cosine).
  { unfold cosine. rewrite sqrt_mult by apply norm_sqr_nonneg. reflexivity. }
  rewrite E. assert (B : -1 <= cosine <= 1) by nra.
  rewrite (Rmin_right 1 cosine), Rmax_right by lra.
  assert (Q : sqrt (1 - cosine²) = Rabs sine).
  { unfold Rsqr. replace (1 - cosine * cosine) with (Rsqr sine) by (unfold Rsqr; lra). apply sqrt_Rsqr_abs. }
  pose proof (acos_bound cosine) as A. pose proof PI_RGT_0.
  assert (I : 0 < / (norm n1 * norm n2 * norm e)) by (apply Rinv_0_lt_compat; repeat apply Rmult_lt_0_compat; auto).
  destruct (Rlt_dec _ _) as [L|L].
  - assert (Sn : sine < 0) by (unfold sine, Rdiv; nra).
    split; [|split].
    + split; [|lra]. destruct (Req_dec cosine (-1)) as [F|F]; [exfalso; rewrite F in U; nra|].
      assert (acos cosine < PI); [|lra]. destruct (Rle_lt_or_eq_dec _ _ (proj2 A)) as [|G]; [assumption|].
      exfalso. apply F. rewrite <- (cos_acos cosine B), G. apply cos_PI.
    + now rewrite cos_neg, cos_acos.
    + rewrite sin_neg, sin_acos, Q by exact B. rewrite Rabs_left by exact Sn. ring.
  - assert (Sn : 0 <= sine) by (unfold sine, Rdiv; nra).
    split; [lra|]. split; [now apply cos_acos|]. rewrite sin_acos, Q by exact B. apply Rabs_right. lra.
Qed.
End Angle.

(* vectors depending on a parameter *)
Definition dv (f : R -> v3) (f' : v3) : Prop :=
  derivable_pt_lim (fun t => vx (f t)) 0 (vx f') /\ derivable_pt_lim (fun t => vy (f t)) 0 (vy f') /\ derivable_pt_lim (fun t => vz (f t)) 0 (vz f').
Lemma d_lin a b : derivable_pt_lim (fun t => a + t * b) 0 b.
Proof. apply (dext _ (fun t => a + b * t + 0 * (t * t)) _ _ b); [intros; ring|reflexivity|apply d_quadratic]. Qed.
Lemma dv_lin a b : dv (fun t => vadd a (scal t b)) b.
Proof. unfold dv, vadd, scal. cbn. repeat split; apply d_lin. Qed.
Lemma dv_sub f g f' g' : dv f f' -> dv g g' -> dv (fun t => vsub (f t) (g t)) (vsub f' g').
Proof.
  intros (A & B & C) (A' & B' & C'). unfold dv, vsub. cbn.
  split; [|split]; [apply (derivable_pt_lim_minus (fun t => vx (f t)) (fun t => vx (g t)))|apply (derivable_pt_lim_minus (fun t => vy (f t)) (fun t => vy (g t)))|apply (derivable_pt_lim_minus (fun t => vz (f t)) (fun t => vz (g t)))]; assumption.
Qed.
Lemma d_mult f g f' g' : derivable_pt_lim f 0 f' -> derivable_pt_lim g 0 g' -> derivable_pt_lim (fun t => f t * g t) 0 (f' * g 0 + f 0 * g').
Proof. intros A B. now apply (derivable_pt_lim_mult f g). Qed.
Lemma d_plus f g f' g' : derivable_pt_lim f 0 f' -> derivable_pt_lim g 0 g' -> derivable_pt_lim (fun t => f t + g t) 0 (f' + g').
Proof. intros A B. now apply (derivable_pt_lim_plus f g). Qed.
Lemma d_minus f g f' g' : derivable_pt_lim f 0 f' -> derivable_pt_lim g 0 g' -> derivable_pt_lim (fun t => f t - g t) 0 (f' - g').
Proof. intros A B. now apply (derivable_pt_lim_minus f g). Qed.
Lemma dv_cross f g f' g' : dv f f' -> dv g g' -> dv (fun t => cross (f t) (g t)) (vadd (cross f' (g 0)) (cross (f 0) g')).
Proof.
  intros (A & B & C) (A' & B' & C'). unfold dv, cross, vadd. cbn.
  split; [|split].
  - eapply dext; [reflexivity| |apply (d_minus (fun t => vy (f t) * vz (g t)) (fun t => vz (f t) * vy (g t))); apply d_mult; eassumption]. cbn beta. ring.
  - eapply dext; [reflexivity| |apply (d_minus (fun t => vz (f t) * vx (g t)) (fun t => vx (f t) * vz (g t))); apply d_mult; eassumption]. cbn beta. ring.
  - eapply dext; [reflexivity| |apply (d_minus (fun t => vx (f t) * vy (g t)) (fun t => vy (f t) * vx (g t))); apply d_mult; eassumption]. cbn beta. ring.
Qed.
Lemma d_dot f g f' g' : dv f f' -> dv g g' -> derivable_pt_lim (fun t => dot (f t) (g t)) 0 (dot f' (g 0) + dot (f 0) g').
Proof.
  intros (A & B & C) (A' & B' & C'). unfold dot.
  eapply dext; [reflexivity| |apply d_plus; [apply d_plus|]; apply d_mult; eassumption]. cbn beta. ring.
Qed.
Lemma d_norm f f' : dv f f' -> f 0 <> zero -> derivable_pt_lim (fun t => norm (f t)) 0 (dot (f 0) f' / norm (f 0)).
Proof.
  intros D N. pose proof (norm_pos _ N) as P. unfold norm at 1.
  eapply dext; [reflexivity| |apply (derivable_pt_lim_comp (fun t => norm_sqr (f t)) sqrt); [apply d_dot; eassumption|apply derivable_pt_lim_sqrt; now apply norm_sqr_pos]].
  fold (norm (f 0)). rewrite (dot_sym f' (f 0)). field. lra.
Qed.
(* a continuous function keeps its sign for a while *)
Lemma stays f f' : derivable_pt_lim f 0 f' -> 0 < f 0 -> exists d, 0 < d /\ forall t, Rabs (t - 0) < d -> 0 < f t.
Proof.
  intros D P. assert (C : continuity_pt f 0) by (apply derivable_continuous_pt; now exists f').
  destruct (C (f 0) P) as (d & Hd & K). exists d. split; [exact Hd|]. intros t Ht.
  destruct (Req_dec t 0) as [->|N]; [exact P|].
  specialize (K t). cbn in K. unfold R_dist, D_x, no_cond in K.
  assert (Q : Rabs (f t - f 0) < f 0) by (apply K; split; auto). apply Rabs_def2 in Q. lra.
Qed.
Lemma stays_nz f f' : dv f f' -> f 0 <> zero -> exists d, 0 < d /\ forall t, Rabs (t - 0) < d -> f t <> zero.
Proof.
  intros D N. destruct (stays (fun t => norm_sqr (f t)) _ (d_dot f f f' f' D D) (norm_sqr_pos _ N)) as (d & Hd & K).
  exists d. split; [exact Hd|]. intros t Ht Z. specialize (K t Ht). rewrite Z, norm_zero in K. lra.
Qed.
