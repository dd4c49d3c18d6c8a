(* Means, deviations, products; the return mappings. *)
From Coq Require Import Reals Arith Lia Lra Psatz.
From Verif Require Import CmModel CmProofs PlModel PlSpec.
Local Open Scope R_scope.

Lemma INR_pos d : (0 < d)%nat -> 0 < INR d.
Proof. intros H. apply lt_0_INR. exact H. Qed.
Lemma vsum_const d c : vsum d (fun _ => c) = INR d * c.
Proof. induction d as [|d IH]; [simpl; ring|]. rewrite S_INR. simpl. rewrite IH. ring. Qed.
Lemma vsum_nonneg d f : (forall i, (i < d)%nat -> 0 <= f i) -> 0 <= vsum d f.
Proof.
  induction d as [|d IH]; intros H; simpl; [lra|].
  assert (A := IH (fun i Hi => H i (Nat.lt_lt_succ_r _ _ Hi))). assert (B := H d (Nat.lt_succ_diag_r d)). lra.
Qed.
Lemma vsum_le d f g : (forall i, (i < d)%nat -> f i <= g i) -> vsum d f <= vsum d g.
Proof.
  induction d as [|d IH]; intros H; simpl; [lra|].
  assert (A := IH (fun i Hi => H i (Nat.lt_lt_succ_r _ _ Hi))). assert (B := H d (Nat.lt_succ_diag_r d)). lra.
Qed.
Lemma vprod_ext d f g : (forall i, (i < d)%nat -> f i = g i) -> vprod d f = vprod d g.
Proof. induction d as [|d IH]; simpl; intros H; [reflexivity|]. rewrite IH, H by (intros; auto; apply H; lia). reflexivity. Qed.
Lemma vprod_pos d S : positive d S -> 0 < vprod d S.
Proof.
  induction d as [|d IH]; intros H; simpl; [lra|].
  apply Rmult_lt_0_compat; [apply IH; intros i Hi; apply H; lia|apply H; lia].
Qed.
Lemma vsum_ln d S : positive d S -> vsum d (fun i => ln (S i)) = ln (vprod d S).
Proof.
  induction d as [|d IH]; intros H; simpl; [symmetry; apply ln_1|].
  assert (P : positive d S) by (intros i Hi; apply H; lia).
  rewrite ln_mult, IH; [reflexivity|exact P|apply vprod_pos, P|apply H; lia].
Qed.
Lemma mean_ext d v w : same d v w -> mean d v = mean d w.
Proof. intros E. unfold mean. rewrite (vsum_ext d v w E). reflexivity. Qed.
Lemma spread_ext d v w : same d v w -> spread d v = spread d w.
Proof.
  intros E. unfold spread. f_equal. rewrite (mean_ext d v w E). apply vsum_ext. intros i Hi. rewrite E by exact Hi. reflexivity.
Qed.
Lemma mean_affine d c b v : (0 < d)%nat -> mean d (fun i => c * v i + b) = c * mean d v + b.
Proof.
  intros H. apply INR_pos in H. unfold mean. rewrite vsum_plus, vsum_scal, vsum_const. field. lra.
Qed.
Lemma spread_affine d c b v : (0 < d)%nat -> spread d (fun i => c * v i + b) = Rabs c * spread d v.
Proof.
  intros H. unfold spread. rewrite mean_affine by exact H.
  rewrite (vsum_ext d _ (fun i => (c * c) * ((v i - mean d v) * (v i - mean d v)))) by (intros; ring).
  rewrite vsum_scal, sqrt_mult_alt by nra. f_equal. rewrite <- sqrt_Rsqr_abs. reflexivity.
Qed.
Lemma spread_nonneg d v : 0 <= spread d v.
Proof. apply sqrt_pos. Qed.
Lemma spread_const d c : (0 < d)%nat -> spread d (fun _ => c) = 0.
Proof.
  intros H. rewrite (spread_ext d _ (fun i => 0 * (fun _ => 0) i + c)) by (intros i _; ring).
  rewrite spread_affine by exact H. rewrite Rabs_R0. ring.
Qed.
Lemma norm_spread d v : norm d (fun i => v i - vsum d v / INR d) = spread d v.
Proof. reflexivity. Qed.
Lemma norm_dev d c v : norm d (fun i => c * deviatoric d v i) = Rabs c * spread d v.
Proof.
  unfold norm, l2NormSqr, spread, deviatoric.
  rewrite (vsum_ext d _ (fun i => (c * c) * ((v i - mean d v) * (v i - mean d v)))).
  2:{ intros i _. unfold mean, Rdiv. ring. }
  rewrite vsum_scal, sqrt_mult_alt by nra. f_equal. rewrite <- sqrt_Rsqr_abs. reflexivity.
Qed.

(* ---- Hencky stress ---- *)
Lemma hencky_spread m d S : (0 < d)%nat -> 0 < mu m ->
  spread d (hencky_stress m d S) = 2 * mu m * spread d (fun i => ln (S i)).
Proof.
  intros H Hm. unfold hencky_stress. rewrite (spread_affine d (2 * mu m) _ (fun i => ln (S i)) H).
  rewrite Rabs_right by lra. reflexivity.
Qed.
Lemma hencky_sum m d S : vsum d (hencky_stress m d S) = (INR d * lam m + 2 * mu m) * vsum d (fun i => ln (S i)).
Proof. unfold hencky_stress. rewrite vsum_plus, vsum_scal, vsum_const. ring. Qed.
Lemma hencky_ext m d S T : same d S T -> same d (hencky_stress m d S) (hencky_stress m d T).
Proof.
  intros E i Hi. unfold hencky_stress. rewrite E by exact Hi. f_equal. f_equal. apply vsum_ext. intros k Hk. rewrite E by exact Hk. reflexivity.
Qed.

(* ---- a radial step in logarithmic strain ---- *)
Lemma radial d S k : (0 < d)%nat ->
  let S' : vec := fun i => exp (ln (S i) - k * (ln (S i) - mean d (fun i => ln (S i)))) in
  vsum d (fun i => ln (S' i)) = vsum d (fun i => ln (S i)) /\
  spread d (fun i => ln (S' i)) = Rabs (1 - k) * spread d (fun i => ln (S i)).
Proof.
  intros H S'. set (e := fun i => ln (S i)) in *.
  assert (E : same d (fun i => ln (S' i)) (fun i => (1 - k) * e i + k * mean d e)).
  { intros i Hi. unfold S'. rewrite ln_exp. fold (e i). ring. }
  split.
  - rewrite (vsum_ext d _ _ E), vsum_plus, vsum_scal, vsum_const. unfold mean. apply INR_pos in H. field. lra.
  - rewrite (spread_ext d _ _ E). apply spread_affine, H.
Qed.

(* ---- Drucker-Prager ---- *)
Definition dp_yield (tau0 : R) (m : lame) (d : nat) (S : vec) : R :=
  spread d (hencky_stress m d S) + tau0 * vsum d (hencky_stress m d S).
Lemma dp_yield_eq tau0 m d S : (0 < d)%nat -> 0 < mu m -> dp_yield tau0 m d S
  = 2 * mu m * (spread d (fun i => ln (S i)) + (INR d * lam m + (mu m + mu m)) / (mu m + mu m) * vsum d (fun i => ln (S i)) * tau0).
Proof. intros Hd Hm. unfold dp_yield. rewrite hencky_spread, hencky_sum by assumption. field. lra. Qed.
Lemma dp_cases tiny tau0 m d S : (0 < d)%nat -> 0 < mu m -> 0 <= INR d * lam m + 2 * mu m -> 0 <= tau0 -> 0 <= tiny ->
  let e : vec := fun i => ln (S i) in
  let r := dp_project tiny tau0 m d S in
  ((spread d e <= tiny \/ 0 < vsum d e) /\ fst r = (fun _ => 1) /\ snd r = true) \/
  (tiny < spread d e /\ vsum d e <= 0 /\ dp_yield tau0 m d S <= 0 /\ r = (S, false)) \/
  (tiny < spread d e /\ vsum d e <= 0 /\ 0 < dp_yield tau0 m d S /\ snd r = true /\
   (exists k, 0 <= k <= 1 /\ forall i, (i < d)%nat -> fst r i = exp (e i - k * (e i - mean d e))) /\
   vsum d (fun i => ln (fst r i)) = vsum d e /\
   2 * mu m * spread d (fun i => ln (fst r i)) = - tau0 * (INR d * lam m + 2 * mu m) * vsum d e).
Proof.
  intros Hd Hm Hl Ht Hy e r. unfold r, dp_project. cbv zeta. fold e.
  change (norm d (fun i => e i - vsum d e / INR d)) with (spread d e).
  change (norm d (fun i => ln (S i) - vsum d e / INR d)) with (spread d e).
  destruct (Rle_dec (spread d e) tiny) as [C|C]; [left; auto|].
  destruct (Rlt_dec 0 (vsum d e)) as [D|D]; [left; auto|]. right.
  assert (Y := dp_yield_eq tau0 m d S Hd Hm). fold e in Y.
  set (dg := spread d e + (INR d * lam m + (mu m + mu m)) / (mu m + mu m) * vsum d e * tau0) in *.
  destruct (Rle_dec dg 0) as [G|G].
  - left. repeat split; try lra. rewrite Y. nra.
  - right. set (n := spread d e) in *. simpl fst. simpl snd.
    assert (N : 0 < n) by lra.
    assert (Rr : n - dg = - ((INR d * lam m + (mu m + mu m)) / (mu m + mu m) * vsum d e * tau0)) by (unfold dg; ring).
    assert (R0 : 0 <= n - dg).
    { rewrite Rr. assert (0 <= (INR d * lam m + (mu m + mu m)) / (mu m + mu m)).
      { apply Rmult_le_pos; [lra|]. left. apply Rinv_0_lt_compat. lra. }
      assert (0 <= (INR d * lam m + (mu m + mu m)) / (mu m + mu m) * - vsum d e) by (apply Rmult_le_pos; lra). nra. }
    destruct (radial d S (dg / n) Hd) as [A B]. fold e in A, B.
    change (mean d e) with (vsum d e / INR d) in A, B.
    split; [lra|]. split; [lra|]. split; [rewrite Y; apply Rmult_lt_0_compat; lra|]. split; [reflexivity|].
    split; [|split].
    + exists (dg / n). split; [|intros; reflexivity]. split.
      * apply Rmult_le_pos; [lra|]. left. apply Rinv_0_lt_compat. exact N.
      * apply (Rmult_le_reg_r n); [exact N|]. unfold Rdiv. rewrite Rmult_assoc, Rinv_l by lra. lra.
    + exact A.
    + rewrite B. replace (1 - dg / n) with ((n - dg) / n) by (field; lra).
      rewrite Rabs_right; [|apply Rle_ge, Rmult_le_pos; [exact R0|left; apply Rinv_0_lt_compat; exact N]].
      fold n. replace ((n - dg) / n * n) with (n - dg) by (field; lra). rewrite Rr. field. lra.
Qed.
Lemma dp_admissible tiny tau0 m d S : (0 < d)%nat -> 0 < mu m -> 0 <= INR d * lam m + 2 * mu m -> 0 <= tau0 -> 0 <= tiny ->
  dp_yield tau0 m d (fst (dp_project tiny tau0 m d S)) <= 0.
Proof.
  intros Hd Hm Hl Ht Hy. destruct (dp_cases tiny tau0 m d S Hd Hm Hl Ht Hy) as [(_ & E & _)|[(_ & _ & Y & E)|(_ & _ & _ & _ & _ & A & B)]].
  - rewrite E. unfold dp_yield. rewrite hencky_spread, hencky_sum by assumption.
    rewrite (spread_ext d _ (fun _ => 0)) by (intros i _; apply ln_1). rewrite spread_const by exact Hd.
    rewrite (vsum_ext d _ (fun _ => 0)) by (intros i _; apply ln_1). rewrite vsum_0. lra.
  - rewrite E. exact Y.
  - unfold dp_yield. rewrite hencky_spread, hencky_sum, A, B by assumption. lra.
Qed.

(* ---- capped von Mises ---- *)
Definition clamp (lo hi x : R) : R := Rmax lo (Rmin hi x).
Lemma capped_result P m d S : (0 < d)%nat -> 0 < mu m -> 0 < INR d * lam m + 2 * mu m ->
  0 <= yieldStress P -> 0 <= k1Compress P -> 0 <= k1Stretch P -> positive d S ->
  let S' := capped_project P m d S in
  positive d S' /\
  spread d (hencky_stress m d S') = Rmin (yieldStress P) (spread d (hencky_stress m d S)) /\
  vsum d (hencky_stress m d S') = clamp (- k1Compress P) (k1Stretch P) (vsum d (hencky_stress m d S)) /\
  exists k b, 0 <= k <= 1 /\ forall i, (i < d)%nat -> ln (S' i) = k * ln (S i) + b.
Proof.
  intros Hd Hm Hl Hy Hc Hs HP. cbv zeta. rewrite !hencky_spread, !hencky_sum by assumption.
  unfold capped_project. cbv zeta.
  set (e := fun i => ln (S i)).
  change (norm d (fun i => ln (S i) - vsum d e / INR d)) with (spread d e).
  set (n := spread d e). set (tr := vsum d e). set (K := INR d * lam m + 2 * mu m) in *.
  assert (Nn : 0 <= n) by apply spread_nonneg. assert (Id := INR_pos d Hd).
  set (dg := n - yieldStress P / (mu m + mu m)).
  set (S1 := if Rlt_dec 0 dg then (fun i => exp (ln (S i) - dg / n * (ln (S i) - tr / INR d))) else S).
  assert (H1 : positive d S1 /\ vsum d (fun i => ln (S1 i)) = tr /\
     2 * mu m * spread d (fun i => ln (S1 i)) = Rmin (yieldStress P) (2 * mu m * n) /\
     exists k b, 0 <= k <= 1 /\ forall i, (i < d)%nat -> ln (S1 i) = k * e i + b).
  { assert (YM : yieldStress P = 2 * mu m * (yieldStress P / (mu m + mu m))) by (field; lra).
    assert (Yn : 0 <= yieldStress P / (mu m + mu m)) by (apply Rmult_le_pos; [exact Hy|left; apply Rinv_0_lt_compat; lra]).
    unfold S1. destruct (Rlt_dec 0 dg) as [D|D].
    - split; [intros i _; apply exp_pos|].
      assert (N : 0 < n) by (unfold dg in D; lra).
      destruct (radial d S (dg / n) Hd) as [A B]. fold e in A, B. change (mean d e) with (tr / INR d) in A, B.
      split; [exact A|]. split.
      + rewrite B. fold n. replace (1 - dg / n) with (yieldStress P / (mu m + mu m) / n) by (unfold dg; field; lra).
        rewrite Rabs_right; [|apply Rle_ge, Rmult_le_pos; [exact Yn|left; apply Rinv_0_lt_compat; exact N]].
        rewrite Rmin_left; [field; lra|]. unfold dg in D. rewrite YM. nra.
      + exists (1 - dg / n), (dg / n * (tr / INR d)). split.
        * assert (0 <= dg / n) by (apply Rmult_le_pos; [lra|left; apply Rinv_0_lt_compat; exact N]).
          assert (dg / n <= 1). { apply (Rmult_le_reg_r n); [exact N|]. unfold Rdiv at 1. rewrite Rmult_assoc, Rinv_l by lra. unfold dg. lra. }
          lra.
        * intros i _. rewrite ln_exp. unfold e. ring.
    - split; [exact HP|]. split; [reflexivity|]. split.
      + change (spread d (fun i => ln (S i))) with n. rewrite Rmin_right; [reflexivity|]. unfold dg in D. rewrite YM. nra.
      + exists 1, 0. split; [lra|]. intros i _. unfold e. ring. }
  destruct H1 as (P1 & T1 & N1 & k & b & Hk & L1).
  assert (SC : forall x, let S' : vec := fun i => S1 i * exp (x / INR d - tr / INR d) in
     positive d S' /\ 2 * mu m * spread d (fun i => ln (S' i)) = Rmin (yieldStress P) (2 * mu m * n) /\
     vsum d (fun i => ln (S' i)) = x /\
     exists k b, 0 <= k <= 1 /\ forall i, (i < d)%nat -> ln (S' i) = k * ln (S i) + b).
  { intros x S'. assert (E : same d (fun i => ln (S' i)) (fun i => 1 * ln (S1 i) + (x / INR d - tr / INR d))).
    { intros i Hi. unfold S'. rewrite ln_mult, ln_exp; [ring|apply P1, Hi|apply exp_pos]. }
    split; [intros i Hi; apply Rmult_lt_0_compat; [apply P1, Hi|apply exp_pos]|]. split; [|split].
    - rewrite (spread_ext d _ _ E), spread_affine by exact Hd. rewrite Rabs_R1, Rmult_1_l. exact N1.
    - rewrite (vsum_ext d _ _ E), vsum_plus, vsum_scal, vsum_const, T1. field. lra.
    - exists k, (b + (x / INR d - tr / INR d)). split; [exact Hk|]. intros i Hi. rewrite E, L1 by exact Hi. unfold e. ring. }
  assert (KE : INR d * lam m + (mu m + mu m) = K) by (unfold K; ring).
  assert (KE2 : INR d * (INR d * lam m) + INR d * (mu m + mu m) = INR d * K) by (unfold K; ring).
  rewrite KE, KE2.
  assert (Q : forall x y, x / K < y <-> x < K * y).
  { intros x y. split; intros H.
    - apply (Rmult_lt_reg_r (/ K)); [apply Rinv_0_lt_compat; exact Hl|].
      replace (K * y * / K) with y by (field; lra). exact H.
    - apply (Rmult_lt_reg_r K); [exact Hl|]. replace (x / K * K) with x by (field; lra). lra. }
  assert (Q' : forall x y, y < x / K <-> K * y < x).
  { intros x y. split; intros H.
    - apply (Rmult_lt_reg_r (/ K)); [apply Rinv_0_lt_compat; exact Hl|].
      replace (K * y * / K) with y by (field; lra). exact H.
    - apply (Rmult_lt_reg_r K); [exact Hl|]. replace (x / K * K) with x by (field; lra). lra. }
  destruct (Rlt_dec (k1Stretch P / K) tr) as [C|C].
  - apply Q in C. replace (k1Stretch P / (INR d * K)) with (k1Stretch P / K / INR d) by (field; lra).
    destruct (SC (k1Stretch P / K)) as (X1 & X2 & X3 & X4). split; [exact X1|]. split; [exact X2|]. split; [|exact X4].
    transitivity (K * (k1Stretch P / K)); [f_equal; exact X3|].
    unfold clamp. rewrite Rmin_left by lra. rewrite Rmax_right by lra. field. lra.
  - destruct (Rlt_dec tr (- k1Compress P / K)) as [D|D].
    + apply Q' in D. replace (- k1Compress P / (INR d * K)) with (- k1Compress P / K / INR d) by (field; lra).
      destruct (SC (- k1Compress P / K)) as (X1 & X2 & X3 & X4). split; [exact X1|]. split; [exact X2|]. split; [|exact X4].
      transitivity (K * (- k1Compress P / K)); [f_equal; exact X3|].
      unfold clamp. rewrite Rmin_right by lra. rewrite Rmax_left by lra. field. lra.
    + split; [exact P1|]. split; [exact N1|]. split.
      * transitivity (K * tr); [f_equal; exact T1|]. unfold clamp. fold tr.
        assert (~ k1Stretch P < K * tr) by (intros H; apply C, Q, H).
        assert (~ K * tr < - k1Compress P) by (intros H0; apply D, Q', H0).
        rewrite Rmin_right, Rmax_right by lra. reflexivity.
      * exists k, b. split; [exact Hk|exact L1].
Qed.
Lemma capped_idle P m d S : (0 < d)%nat -> 0 < mu m -> 0 < INR d * lam m + 2 * mu m ->
  spread d (hencky_stress m d S) <= yieldStress P ->
  - k1Compress P <= vsum d (hencky_stress m d S) <= k1Stretch P ->
  capped_project P m d S = S.
Proof.
  intros Hd Hm Hl. rewrite hencky_spread, hencky_sum by assumption. intros Y [C1 C2].
  unfold capped_project. cbv zeta.
  set (e := fun i => ln (S i)) in *.
  change (norm d (fun i => ln (S i) - vsum d e / INR d)) with (spread d e).
  replace (INR d * lam m + (mu m + mu m)) with (INR d * lam m + 2 * mu m) by ring.
  set (K := INR d * lam m + 2 * mu m) in *.
  destruct (Rlt_dec (k1Stretch P / K) (vsum d e)) as [C|C].
  { exfalso. apply (Rmult_lt_compat_l K) in C; [|exact Hl]. replace (K * (k1Stretch P / K)) with (k1Stretch P) in C by (field; lra). lra. }
  destruct (Rlt_dec (vsum d e) (- k1Compress P / K)) as [D|D].
  { exfalso. apply (Rmult_lt_compat_l K) in D; [|exact Hl]. replace (K * (- k1Compress P / K)) with (- k1Compress P) in D by (field; lra). lra. }
  destruct (Rlt_dec 0 (spread d e - yieldStress P / (mu m + mu m))) as [G|G]; [|reflexivity].
  exfalso. apply (Rmult_lt_compat_l (mu m + mu m)) in G; [|lra].
  replace ((mu m + mu m) * (spread d e - yieldStress P / (mu m + mu m))) with (2 * mu m * spread d e - yieldStress P) in G by (field; lra). lra.
Qed.
