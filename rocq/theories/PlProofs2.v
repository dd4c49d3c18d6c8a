(* Von Mises with neo-Hookean stresses, snow, Cam-Clay. *)
From Coq Require Import Reals Arith Lia Lra Psatz.
From Verif Require Import CmModel CmProofs PlModel PlSpec PlProofs.
Local Open Scope R_scope.

(* ---- pulling positive numbers towards their mean does not lessen the product ---- *)
Lemma ln_tangent y z : 0 < y -> 0 < z -> ln y <= ln z + (y - z) / z.
Proof.
  intros Hy Hz. assert (E := exp_ineq1_le (ln (y / z))).
  rewrite exp_ln in E by (apply Rmult_lt_0_compat; [exact Hy|apply Rinv_0_lt_compat; exact Hz]).
  unfold Rdiv in E. rewrite ln_mult, ln_Rinv in E by (try apply Rinv_0_lt_compat; assumption).
  replace ((y - z) / z) with (y * / z - 1) by (field; lra). lra.
Qed.
Lemma shrink_positive d B c : positive d B -> 0 <= c <= 1 -> (0 < d)%nat ->
  0 < mean d B /\ forall i, (i < d)%nat -> 0 < c * B i + (1 - c) * mean d B.
Proof.
  intros HB Hc Hd.
  assert (M : 0 < mean d B).
  { unfold mean. apply Rmult_lt_0_compat; [|apply Rinv_0_lt_compat, INR_pos, Hd].
    destruct d as [|d]; [lia|]. simpl. apply Rplus_le_lt_0_compat; [|apply HB; lia].
    apply vsum_nonneg. intros i Hi. left. apply HB. lia. }
  split; [exact M|]. intros i Hi. assert (B1 := HB i Hi). nra.
Qed.
Lemma shrink_product d B c : positive d B -> 0 <= c <= 1 -> (0 < d)%nat ->
  vsum d (fun i => ln (B i)) <= vsum d (fun i => ln (c * B i + (1 - c) * mean d B)).
Proof.
  intros HB Hc Hd. destruct (shrink_positive d B c HB Hc Hd) as [M Z].
  assert (J : vsum d (fun i => ln (B i)) <= INR d * ln (mean d B)).
  { apply (Rle_trans _ (vsum d (fun i => ln (mean d B) + (/ mean d B * B i + - 1)))).
    - apply vsum_le. intros i Hi. eapply Rle_trans; [apply (ln_tangent _ (mean d B)); [apply HB, Hi|exact M]|].
      right. field. lra.
    - right. rewrite !vsum_plus, !vsum_const, vsum_scal. unfold mean at 2.
      assert (I := INR_pos d Hd). assert (V : vsum d B <> 0). { intros E. unfold mean in M. rewrite E in M. unfold Rdiv in M. lra. }
      field. split; first [exact V|lra]. }
  apply (Rle_trans _ (c * vsum d (fun i => ln (B i)) + (1 - c) * (INR d * ln (mean d B)))).
  - assert (0 <= (1 - c) * (INR d * ln (mean d B) - vsum d (fun i => ln (B i)))) by (apply Rmult_le_pos; lra). lra.
  - rewrite <- vsum_const. rewrite <- !vsum_scal, <- vsum_plus. apply vsum_le. intros i Hi.
    set (z := c * B i + (1 - c) * mean d B). assert (Hz : 0 < z) by (apply Z, Hi).
    assert (A1 := ln_tangent (B i) z (HB i Hi) Hz). assert (A2 := ln_tangent (mean d B) z M Hz).
    assert (E : c * ((B i - z) / z) + (1 - c) * ((mean d B - z) / z) = 0) by (unfold z at 1 3; unfold Rdiv;
      replace (c * ((B i - (c * B i + (1 - c) * mean d B)) * / z) + (1 - c) * ((mean d B - (c * B i + (1 - c) * mean d B)) * / z))
       with (/ z * 0) by ring; ring).
    assert (A3 : c * ln (B i) <= c * (ln z + (B i - z) / z)) by (apply Rmult_le_compat_l; lra).
    assert (A4 : (1 - c) * ln (mean d B) <= (1 - c) * (ln z + (mean d B - z) / z)) by (apply Rmult_le_compat_l; lra).
    lra.
Qed.
Lemma vprod_sqrt_ge d S B : positive d S -> (forall i, (i < d)%nat -> 0 < B i) ->
  vsum d (fun i => ln (S i * S i)) <= vsum d (fun i => ln (B i)) ->
  vprod d S <= vprod d (fun i => sqrt (B i)).
Proof.
  intros HS HB H.
  assert (PS : positive d (fun i => sqrt (B i))) by (intros i Hi; apply sqrt_lt_R0, HB, Hi).
  assert (E1 : vsum d (fun i => ln (S i * S i)) = 2 * ln (vprod d S)).
  { rewrite <- vsum_ln by exact HS. rewrite <- vsum_scal. apply vsum_ext. intros i Hi. rewrite ln_mult by (apply HS, Hi). ring. }
  assert (E2 : vsum d (fun i => ln (B i)) = 2 * ln (vprod d (fun i => sqrt (B i)))).
  { rewrite <- vsum_ln by exact PS. rewrite <- vsum_scal. apply vsum_ext. intros i Hi.
    rewrite <- (sqrt_sqrt (B i)) at 1 by (left; apply HB, Hi). rewrite ln_mult by (apply (PS i Hi)). ring. }
  assert (L : ln (vprod d S) <= ln (vprod d (fun i => sqrt (B i)))) by lra.
  destruct L as [L|L].
  - left. apply ln_lt_inv; [apply vprod_pos, HS|apply vprod_pos, PS|exact L].
  - right. apply ln_inv; [apply vprod_pos, HS|apply vprod_pos, PS|exact L].
Qed.

(* ---- von Mises ---- *)
Definition vm_limit (P : von_mises) (d : nat) : R := sqrt (2 / (6 - INR d)) * (tauY P + hardeningCoeff P * alpha P).
Lemma Rpower_pos x y : 0 < Rpower x y.
Proof. apply exp_pos. Qed.
Lemma Rpower_decr x y e : 0 < x -> x <= y -> e <= 0 -> Rpower y e <= Rpower x e.
Proof.
  intros Hx Hy He. unfold Rpower. destruct Hy as [Hy|Hy]; [|rewrite Hy; lra].
  assert (ln x < ln y) by (apply ln_increasing; assumption).
  destruct (Rle_lt_or_eq_dec (e * ln y) (e * ln x)) as [H1|H1]; [nra| |].
  - left. apply exp_increasing. exact H1.
  - right. rewrite H1. reflexivity.
Qed.
Lemma vm_cases P m d S : (0 < d)%nat -> 0 < mu m -> 0 <= vm_limit P d -> positive d S ->
  let r := vm_project P m d S in
  (shear_stress m d S < vm_limit P d + 1 / 10000 /\ r = (S, false)) \/
  (vm_limit P d + 1 / 10000 <= shear_stress m d S /\ snd r = true /\ positive d (fst r) /\
   mu m * Rpower (vprod d S) (-2 / INR d) * spread d (fun i => fst r i * fst r i) = vm_limit P d /\
   vsum d (fun i => fst r i * fst r i) = vsum d (fun i => S i * S i) /\
   vprod d S <= vprod d (fst r) /\
   exists k b, 0 <= k <= 1 /\ forall i, (i < d)%nat -> fst r i * fst r i = k * (S i * S i) + b).
Proof.
  intros Hd Hm Ht HS r. unfold r, vm_project. cbv zeta. fold (vm_limit P d).
  set (B := fun i => S i * S i). set (q := mu m * Rpower (vprod d S) (-2 / INR d)).
  assert (Hq : 0 < q) by (apply Rmult_lt_0_compat; [exact Hm|apply Rpower_pos]).
  rewrite norm_dev. rewrite (Rabs_right q) by lra.
  change (shear_stress m d S) with (q * spread d B). set (n := q * spread d B).
  destruct (Rlt_dec (n - vm_limit P d) (1 / 10000)) as [C|C]; [left; split; [lra|reflexivity]|right].
  split; [lra|]. split; [reflexivity|]. simpl fst.
  assert (N : 0 < n) by lra. set (c := vm_limit P d / n).
  assert (Hc : 0 <= c <= 1).
  { split; [apply Rmult_le_pos; [exact Ht|left; apply Rinv_0_lt_compat; exact N]|].
    apply (Rmult_le_reg_r n); [exact N|]. unfold c, Rdiv. rewrite Rmult_assoc, Rinv_l by lra. lra. }
  assert (HB : positive d B) by (intros i Hi; assert (Q := HS i Hi); unfold B; nra).
  destruct (shrink_positive d B c HB Hc Hd) as [_ Z].
  assert (E : forall i, S i * S i - (n - vm_limit P d) / q / n * (q * deviatoric d B i) = c * B i + (1 - c) * mean d B).
  { intros i. unfold c, deviatoric, mean, B. field. split; [|split]; try lra. assert (I := INR_pos d Hd). lra. }
  assert (E2 : same d (fun i => sqrt (S i * S i - (n - vm_limit P d) / q / n * (q * deviatoric d B i)) * sqrt (S i * S i - (n - vm_limit P d) / q / n * (q * deviatoric d B i)))
     (fun i => c * B i + (1 - c) * mean d B)).
  { intros i Hi. rewrite E. apply sqrt_sqrt. left. apply Z, Hi. }
  split; [|split; [|split; [|split]]].
  - intros i Hi. rewrite E. apply sqrt_lt_R0, Z, Hi.
  - rewrite (spread_ext d _ _ E2), spread_affine by exact Hd. rewrite Rabs_right by lra.
    unfold c. replace (q * (vm_limit P d / n * spread d B)) with (vm_limit P d / n * n) by (unfold n; ring). field. lra.
  - rewrite (vsum_ext d _ _ E2), vsum_plus, vsum_scal, vsum_const. unfold mean. fold B. assert (I := INR_pos d Hd). field. lra.
  - rewrite (vprod_ext d (fun i => sqrt _) (fun i => sqrt (c * B i + (1 - c) * mean d B))) by (intros i Hi; rewrite E; reflexivity).
    apply vprod_sqrt_ge; [exact HS|exact Z|]. apply shrink_product; assumption.
  - exists c, ((1 - c) * mean d B). split; [exact Hc|]. intros i Hi. rewrite (E2 i Hi). reflexivity.
Qed.
Lemma vm_admissible P m d S : (0 < d)%nat -> 0 < mu m -> 0 <= vm_limit P d -> positive d S ->
  shear_stress m d (fst (vm_project P m d S)) < vm_limit P d + 1 / 10000 /\
  (snd (vm_project P m d S) = true -> shear_stress m d (fst (vm_project P m d S)) <= vm_limit P d).
Proof.
  intros Hd Hm Ht HS. destruct (vm_cases P m d S Hd Hm Ht HS) as [[Y E]|(_ & T & Pp & A & _ & J & _)].
  - rewrite E. simpl. split; [exact Y|discriminate].
  - assert (L : shear_stress m d (fst (vm_project P m d S)) <= vm_limit P d).
    { rewrite <- A. unfold shear_stress. apply Rmult_le_compat_r; [apply spread_nonneg|].
      apply Rmult_le_compat_l; [lra|]. apply Rpower_decr; [apply vprod_pos, HS|exact J|].
      unfold Rdiv. assert (0 < / INR d) by (apply Rinv_0_lt_compat, INR_pos, Hd). lra. }
    split; [lra|auto].
Qed.

(* ---- snow ---- *)
Lemma vprod_le d f g : positive d f -> (forall i, (i < d)%nat -> f i <= g i) -> vprod d f <= vprod d g.
Proof.
  induction d as [|d IH]; intros P H; simpl; [lra|].
  apply Rmult_le_compat; [left; apply vprod_pos; intros i Hi; apply P; lia|left; apply P; lia| |apply H; lia].
  apply IH; intros i Hi; [apply P; lia|apply H; lia].
Qed.

(* ---- Cam-Clay ---- *)
Lemma vprod_root d J : (0 < d)%nat -> 0 < J -> vprod d (fun _ => Rpower J (1 / INR d)) = J.
Proof.
  intros Hd HJ. assert (P : positive d (fun _ => Rpower J (1 / INR d))) by (intros i _; apply Rpower_pos).
  apply ln_inv; [apply vprod_pos, P|exact HJ|]. rewrite <- vsum_ln by exact P.
  rewrite (vsum_ext d _ (fun _ => 1 / INR d * ln J)) by (intros i _; unfold Rpower; rewrite ln_exp; reflexivity).
  rewrite vsum_const. assert (I := INR_pos d Hd). field. lra.
Qed.
Definition cc_yield (P : cam_clay) (d : nat) (p0 p s : R) : R :=
  (6 - INR d) / 2 * (1 + 2 * beta P) * (s * s) + slope P * slope P * (p + beta P * p0) * (p - p0).
Lemma sinh_nonneg x : 0 <= x -> 0 <= sinh x.
Proof.
  intros H. unfold sinh. assert (exp (- x) <= exp x); [|lra].
  destruct H as [H|H]; [left; apply exp_increasing; lra|rewrite <- H, Ropp_0; lra].
Qed.
Lemma p0_pos P m l : 0 < cc_kappa m -> 0 <= xi P -> 0 < cc_p0 P m l.
Proof.
  intros K X. unfold cc_p0. apply Rmult_lt_0_compat; [exact K|].
  assert (0 <= xi P * sinh (Rmax (- l) 0)) by (apply Rmult_le_pos; [exact X|apply sinh_nonneg, Rmax_r]). lra.
Qed.
Lemma cc_cases P m d S l : (0 < d)%nat -> INR d < 6 -> 0 < mu m -> 0 < cc_kappa m -> 0 <= beta P -> 0 <= xi P -> positive d S ->
  let J := vprod d S in let p := pressure (cc_kappa m) J in let p0 := cc_p0 P m l in
  let r := cc_project P m d S l in
  let S' := fst (fst r) in
  ((p0 < p \/ p < - (beta P * p0)) /\ snd r = true /\ positive d S' /\
   (forall i j, S' i = S' j) /\ 0 < vprod d S' /\
   (p0 < p -> pressure (cc_kappa m) (vprod d S') = p0) /\
   (p < - (beta P * p0) -> pressure (cc_kappa m) (vprod d S') = - (beta P * p0)) /\
   snd (fst r) = if hardeningOn P then l + ln (J / vprod d S') else l) \/
  (- (beta P * p0) <= p <= p0 /\ cc_yield P d p0 p (shear_stress m d S) < 1 / 10000 /\ r = (S, l, false)) \/
  (- (beta P * p0) <= p <= p0 /\ 1 / 10000 <= cc_yield P d p0 p (shear_stress m d S) /\ snd r = true /\ positive d S' /\
   cc_yield P d p0 p (mu m * Rpower J (-2 / INR d) * spread d (fun i => S' i * S' i)) = 0 /\
   vsum d (fun i => S' i * S' i) = vsum d (fun i => S i * S i) /\
   vprod d S <= vprod d S').
Proof.
  intros Hd H6 Hm HK Hb Hx HS J p p0 r S'.
  assert (HJ : 0 < J) by (apply vprod_pos, HS).
  assert (Hp0 : 0 < p0) by (apply p0_pos; assumption).
  assert (Id := INR_pos d Hd).
  assert (Ep : - (cc_kappa m / 2 * (J - 1 / J)) * J = p) by (unfold p, pressure; field; lra).
  assert (PB : 0 <= beta P * p0) by (apply Rmult_le_pos; lra).
  unfold S', r, cc_project. cbv zeta. fold J p0. rewrite Ep.
  set (K := cc_kappa m) in *.
  assert (TIP : forall X x, 0 < X -> pressure K (sqrt X) = x -> 
     let t := ((fun _ : nat => Rpower (sqrt X) (1 / INR d)), if hardeningOn P then l + ln (J / sqrt X) else l, true) in
     positive d (fst (fst t)) /\ 0 < vprod d (fst (fst t)) /\ pressure K (vprod d (fst (fst t))) = x /\
     snd (fst t) = if hardeningOn P then l + ln (J / vprod d (fst (fst t))) else l).
  { intros X x HX Hpx t. simpl. assert (V := vprod_root d (sqrt X) Hd (sqrt_lt_R0 _ HX)).
    split; [intros i _; apply Rpower_pos|]. rewrite V. split; [apply sqrt_lt_R0, HX|]. split; [exact Hpx|reflexivity]. }
  assert (PJ : p = K / 2 * (1 - J * J)) by (unfold p, pressure; ring).
  destruct (Rlt_dec p0 p) as [C1|C1].
  { left. set (X := - (p0 + p0) / K + 1).
    assert (HX : 0 < X).
    { unfold X. apply (Rmult_lt_reg_l K); [exact HK|]. replace (K * (- (p0 + p0) / K + 1)) with (K - 2 * p0) by (field; lra).
      assert (0 < K * (J * J)) by (apply Rmult_lt_0_compat; [exact HK|nra]). nra. }
    destruct (TIP X p0 HX) as (T1 & T2 & T3 & T4).
    { unfold pressure. rewrite sqrt_sqrt by lra. unfold X. field. lra. }
    split; [left; exact C1|]. split; [reflexivity|]. split; [exact T1|]. split; [reflexivity|]. split; [exact T2|].
    split; [intros _; exact T3|]. split; [intros; lra|exact T4]. }
  destruct (Rlt_dec p (- (beta P * p0))) as [C2|C2].
  { left. set (X := (beta P * p0 + beta P * p0) / K + 1).
    assert (HX : 0 < X).
    { unfold X. assert (0 <= (beta P * p0 + beta P * p0) / K) by (apply Rmult_le_pos; [lra|left; apply Rinv_0_lt_compat, HK]). lra. }
    destruct (TIP X (- (beta P * p0)) HX) as (T1 & T2 & T3 & T4).
    { unfold pressure. rewrite sqrt_sqrt by lra. unfold X. field. lra. }
    split; [right; exact C2|]. split; [reflexivity|]. split; [exact T1|]. split; [reflexivity|]. split; [exact T2|].
    split; [intros; lra|]. split; [intros _; exact T3|exact T4]. }
  right.
  set (B := fun i => S i * S i).
  assert (HR : 0 < Rpower J (2 / INR d)) by apply Rpower_pos.
  assert (RI : Rpower J (-2 / INR d) = / Rpower J (2 / INR d)).
  { rewrite <- Rpower_Ropp. f_equal. field. lra. }
  set (side := Rpower J (2 / INR d)) in *. set (q := mu m / side).
  assert (Hq : 0 < q) by (apply Rmult_lt_0_compat; [exact Hm|apply Rinv_0_lt_compat, HR]).
  assert (SH : shear_stress m d S = q * spread d B) by (unfold shear_stress; fold J; rewrite RI; reflexivity).
  rewrite !norm_dev. rewrite (Rabs_right q) by lra.
  assert (L2 : l2NormSqr d (fun i => q * deviatoric d B i) = (q * spread d B) * (q * spread d B)).
  { assert (ND := norm_dev d q B). unfold norm in ND. rewrite (Rabs_right q) in ND by lra. rewrite <- ND.
    symmetry. apply sqrt_sqrt. apply vsum_nonneg. intros i _. nra. }
  rewrite L2, <- SH. set (n := shear_stress m d S).
  set (ys := (6 - INR d) * (1 / 2) * (1 + 2 * beta P)). set (yp := slope P * slope P * (p + beta P * p0) * (p - p0)).
  assert (Hys : 0 < ys) by (unfold ys; apply Rmult_lt_0_compat; lra).
  assert (Hyp : yp <= 0).
  { unfold yp. assert (0 <= slope P * slope P) by nra. assert (0 <= slope P * slope P * (p + beta P * p0)) by (apply Rmult_le_pos; lra).
    assert (0 <= slope P * slope P * (p + beta P * p0) * (p0 - p)) by (apply Rmult_le_pos; lra). lra. }
  assert (YE : forall s, cc_yield P d p0 p s = ys * (s * s) + yp) by (intros s; unfold cc_yield, ys, yp; field).
  rewrite YE.
  destruct (Rlt_dec (ys * (n * n) + yp) (1 / 10000)) as [D|D]; [left; split; [lra|split; [lra|reflexivity]]|right].
  simpl fst. simpl snd. rewrite YE. split; [lra|]. split; [lra|]. split; [reflexivity|].
  assert (Nn : 0 <= n) by (unfold n; rewrite SH; apply Rmult_le_pos; [lra|apply spread_nonneg]).
  assert (N : 0 < n) by (destruct Nn as [|E0]; [assumption|exfalso; rewrite <- E0 in D; lra]).
  set (w := sqrt (- yp / ys)).
  assert (W0 : 0 <= - yp / ys) by (apply Rmult_le_pos; [lra|left; apply Rinv_0_lt_compat, Hys]).
  assert (WW : w * w = - yp / ys) by (apply sqrt_sqrt, W0).
  assert (Hw : 0 <= w) by apply sqrt_pos.
  assert (WN : w <= n).
  { apply Rsqr_incr_0_var; [|exact Nn]. unfold Rsqr. rewrite WW. apply (Rmult_le_reg_l ys); [exact Hys|].
    replace (ys * (- yp / ys)) with (- yp) by (field; lra). lra. }
  set (c := w / n).
  assert (Hc : 0 <= c <= 1).
  { split; [apply Rmult_le_pos; [exact Hw|left; apply Rinv_0_lt_compat; exact N]|].
    apply (Rmult_le_reg_r n); [exact N|]. unfold c, Rdiv. rewrite Rmult_assoc, Rinv_l by lra. lra. }
  assert (HB : positive d B) by (intros i Hi; assert (Q := HS i Hi); unfold B; nra).
  destruct (shrink_positive d B c HB Hc Hd) as [_ Z].
  assert (E : forall i, side / mu m * w * (q * deviatoric d B i) / n + 1 / INR d * vsum d B = c * B i + (1 - c) * mean d B).
  { intros i. unfold c, deviatoric, mean, q. field. repeat split; lra. }
  assert (E2 : same d (fun i => sqrt (side / mu m * w * (q * deviatoric d B i) / n + 1 / INR d * vsum d B) * sqrt (side / mu m * w * (q * deviatoric d B i) / n + 1 / INR d * vsum d B))
     (fun i => c * B i + (1 - c) * mean d B)).
  { intros i Hi. rewrite E. apply sqrt_sqrt. left. apply Z, Hi. }
  split; [|split; [|split]].
  - intros i Hi. rewrite E. apply sqrt_lt_R0, Z, Hi.
  - rewrite (spread_ext d _ _ E2), spread_affine by exact Hd. rewrite Rabs_right by lra.
    rewrite RI. change (mu m * / side) with q.
    replace (q * (c * spread d B)) with w; [rewrite WW; field; lra|].
    unfold c. replace (q * (w / n * spread d B)) with (w / n * (q * spread d B)) by ring. rewrite <- SH. fold n. field. lra.
  - rewrite (vsum_ext d _ _ E2), vsum_plus, vsum_scal, vsum_const. unfold mean. fold B. field. lra.
  - rewrite (vprod_ext d (fun i => sqrt _) (fun i => sqrt (c * B i + (1 - c) * mean d B))) by (intros i Hi; rewrite E; reflexivity).
    apply vprod_sqrt_ge; [exact HS|exact Z|]. apply shrink_product; assumption.
Qed.
