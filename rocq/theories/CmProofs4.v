From Coq Require Import Reals Arith Lia Lra List.
From Verif Require Import CmModel CmSpec CmProofs CmProofs2 CmProofs3.
Local Open Scope R_scope.

(* ---- Hencky: the left coefficients ---- *)
Lemma hk_core l2 m2 T x y lx ly z : x <> 0 -> y <> 0 -> z * (x - y) = x * ly - y * lx ->
  2 * (x - y) * (- (l2 * T + m2 * z) / (x * y) * (1 / 2)) = (m2 * lx + l2 * T) / x - (m2 * ly + l2 * T) / y.
Proof.
  intros Nx Ny Hz.
  transitivity (- (l2 * T * (x - y) + m2 * (z * (x - y))) / (x * y)); [field; auto|].
  rewrite Hz. field. auto.
Qed.
Lemma log_quot x y : 0 < x -> 0 < y -> log1p (x / y - 1) = ln x - ln y.
Proof.
  intros Hx Hy. unfold log1p. replace (1 + (x / y - 1)) with (x * / y) by (field; lra).
  rewrite ln_mult, ln_Rinv by (try apply Rinv_0_lt_compat; assumption). ring.
Qed.
Lemma hk_z x y : 0 < x -> 0 < y -> x <> y ->
  (ln y - log1p (x / y - 1) / (x / y - 1)) * (x - y) = x * ln y - y * ln x.
Proof.
  intros Hx Hy N. rewrite log_quot by assumption.
  field. split; lra.
Qed.
Lemma hk_coeff m d k S : pairs d k -> resolved StvkHencky d S -> let (i, j) := pair_of k in
  2 * (S i - S j) * hk_bneg m d S k = hk_dpsi m d S i - hk_dpsi m d S j.
Proof.
  intros Hp [_ [Hpos Hres]].
  destruct Hp as [[-> ->] | [-> H]].
  - assert (P0 := Hpos 0%nat ltac:(lia)). assert (P1 := Hpos 1%nat ltac:(lia)).
    destruct (Hres 0%nat 1%nat ltac:(lia) ltac:(lia)) as [R1 R2].
    simpl. unfold hk_bneg2, hk_dpsi, s_log. simpl. rewrite !Rabs_right by lra.
    destruct (Req_dec (S 0%nat) (S 1%nat)) as [E|N]; [rewrite E; ring|].
    destruct R2 as [E|R2]; [contradiction|].
    rewrite Rmax_left by (unfold hk_eps; lra).
    destruct (Rlt_dec (Rabs (S 0%nat / S 1%nat - 1)) hk_eps) as [C|C]; [unfold hk_eps in C; lra|].
    replace (0 + ln (S 0%nat) + ln (S 1%nat)) with (ln (S 0%nat) + ln (S 1%nat)) by ring.
    replace (1 * S 0%nat * S 1%nat) with (S 0%nat * S 1%nat) by ring.
    apply hk_core; [lra|lra|].
    rewrite <- hk_z by assumption. f_equal. f_equal.
    field. split; [lra|]. intros E. apply N. apply Rminus_diag_uniq. exact E.
  - assert (P0 := Hpos 0%nat ltac:(lia)). assert (P1 := Hpos 1%nat ltac:(lia)). assert (P2 := Hpos 2%nat ltac:(lia)).
    assert (Hab : forall a b, (a < b)%nat -> (b < 3)%nat ->
       2 * (S a - S b) * hk_bneg3 m S a b = hk_dpsi m 3 S a - hk_dpsi m 3 S b).
    { intros a b Ha Hb. assert (Pa := Hpos a ltac:(lia)). assert (Pb := Hpos b Hb).
      destruct (Hres a b Ha Hb) as [R1 R2].
      unfold hk_bneg3, hk_dpsi. set (T := vsum 3 (s_log S)). unfold s_log. rewrite !Rabs_right by lra.
      destruct (Req_dec (S a) (S b)) as [E|N]; [rewrite E; ring|].
      destruct R2 as [E|R2]; [contradiction|].
      unfold diff_interlock_log_over_diff, diff_log_over_diff, log_1px_over_x.
      destruct (Rlt_dec (Rabs (S a / S b - 1)) hk_eps) as [C|C]; [unfold hk_eps in C; lra|].
      apply hk_core; [lra|lra|].
      rewrite <- hk_z by assumption. f_equal. f_equal.
      field. split; [lra|]. intros E. apply N. apply Rminus_diag_uniq. exact E. }
    destruct k as [|[|[|k]]]; try lia; simpl; apply Hab; lia.
Qed.

Lemma left_all k m d S : (d = 2 \/ d = 3)%nat -> domain k d S -> resolved k d S -> left_ok (model k m) d S.
Proof.
  intros Hd D Hr n Hn. destruct k; simpl.
  - apply fc_coeff; exact Hn.
  - apply hk_coeff; assumption.
  - apply nh_coeff; [exact Hn|exact D].
Qed.

Theorem stiffness k m d (F U V : R -> mat) (S : R -> vec) t (G U' V' : mat) (S' : vec) i j : (d = 2 \/ d = 3)%nat ->
  (forall u, decomposes d (F u) (U u) (S u) (V u)) ->
  mat_rate d F t G -> mat_rate d U t U' -> vec_rate d S t S' -> mat_rate d V t V' ->
  domain k d (S t) -> resolved k d (S t) -> (i < d)%nat -> (j < d)%nat ->
  rate (fun u => first_piola (model k m) d (U u) (S u) (V u) i j) t
    (vsum d (fun r => vsum d (fun s =>
       first_piola_derivative keep (model k m) d (U t) (S t) (V t) (j * d + i)%nat (s * d + r)%nat * G r s))).
Proof.
  intros Hd HF HG HU HS HV D Hr Hi Hj.
  assert (Hg : vec_rate d (fun u => dpsi_dsigma (model k m) d (S u)) t (row d (d2psi_dsigma2 (model k m) d (S t)) S')).
  { intros a Ha. apply hessian; try assumption. destruct Hd; tauto. }
  assert (HL := left_all k m d (S t) Hd D Hr).
  destruct Hd as [-> | ->].
  - apply (stiffness2 (model k m) U V F S t U' V' G S'); try assumption; [exact (proj1 Hr)|apply d2_sym].
  - apply (stiffness3 (model k m) U V F S t U' V' G S'); try assumption; [exact (proj1 Hr)|apply d2_sym].
Qed.

(* ---- coincident stretches ---- *)
Theorem coincident k m d n S : pairs d n -> (forall i, (i < d)%nat -> 0 < S i) ->
  let (i, j) := pair_of n in S i = S j ->
  Bij_neg_coeff (model k m) d S n
  = 1 / 2 * (d2psi_dsigma2 (model k m) d S i i - d2psi_dsigma2 (model k m) d S i j).
Proof.
  intros Hp Hpos. destruct k; simpl.
  - destruct Hp as [[-> ->] | [-> H]]; [|destruct n as [|[|[|n]]]; try lia]; simpl; intros E;
      unfold fc_d2psi, fc_bneg; simpl; rewrite E; field.
  - destruct Hp as [[-> ->] | [-> H]].
    + assert (P0 := Hpos 0%nat ltac:(lia)). assert (P1 := Hpos 1%nat ltac:(lia)). simpl. intros E.
      unfold hk_bneg2, hk_d2psi, s_log. simpl. rewrite E. rewrite !Rabs_right by lra.
      replace (S 1%nat / S 1%nat - 1) with 0 by (field; lra).
      rewrite Rmax_left by (unfold hk_eps; lra).
      destruct (Rlt_dec (Rabs 0) hk_eps) as [C|C]; [|rewrite Rabs_R0 in C; unfold hk_eps in C; lra].
      field. lra.
    + assert (P0 := Hpos 0%nat ltac:(lia)). assert (P1 := Hpos 1%nat ltac:(lia)). assert (P2 := Hpos 2%nat ltac:(lia)).
      assert (Hab : forall a b, (a < 3)%nat -> (b < 3)%nat -> a <> b -> S a = S b -> hk_bneg3 m S a b = 1 / 2 * (hk_d2psi m 3 S a a - hk_d2psi m 3 S a b)).
      { intros a b Ha Hb Nab E. assert (Pb := Hpos b Hb).
        unfold hk_bneg3, hk_d2psi. rewrite Nat.eqb_refl. destruct (Nat.eqb_spec a b) as [X|_]; [contradiction|].
        set (T := vsum 3 (s_log S)). unfold s_log. rewrite E. rewrite !Rabs_right by lra.
        unfold diff_interlock_log_over_diff, diff_log_over_diff, log_1px_over_x.
        replace (S b / S b - 1) with 0 by (field; lra).
        destruct (Rlt_dec (Rabs 0) hk_eps) as [C|C]; [|rewrite Rabs_R0 in C; unfold hk_eps in C; lra].
        field. lra. }
      destruct n as [|[|[|n]]]; try lia; simpl; intros E; apply Hab; try lia; exact E.
  - destruct Hp as [[-> ->] | [-> H]].
    + assert (P0 := Hpos 0%nat ltac:(lia)). assert (P1 := Hpos 1%nat ltac:(lia)). simpl. intros E.
      unfold nh_bneg, nh_d2psi. simpl. rewrite E. field. lra.
    + assert (P0 := Hpos 0%nat ltac:(lia)). assert (P1 := Hpos 1%nat ltac:(lia)). assert (P2 := Hpos 2%nat ltac:(lia)).
      destruct n as [|[|[|n]]]; try lia; simpl; intros E; unfold nh_bneg, nh_d2psi; simpl; rewrite E; field; lra.
Qed.

(* ---- the band ---- *)
Lemma ln_le_m1 u : 0 < u -> ln u <= u - 1.
Proof.
  intros H. destruct (Req_dec (ln u) 0) as [E|N].
  - assert (u = 1) by (apply ln_inv; [lra|lra|rewrite ln_1; exact E]). lra.
  - assert (A := exp_ineq1 (ln u) N). rewrite exp_ln in A by assumption. lra.
Qed.
Lemma ln_band q : Rabs q < hk_eps -> q <> 0 -> Rabs (ln (1 + q) / q - 1) <= 11 / 10 * hk_eps.
Proof.
  unfold hk_eps. intros H N. apply Rabs_def2 in H.
  assert (U := ln_le_m1 (1 + q) ltac:(lra)).
  assert (L : q - q * q / (1 + q) <= ln (1 + q)).
  { assert (A := ln_le_m1 (/ (1 + q)) ltac:(apply Rinv_0_lt_compat; lra)).
    rewrite ln_Rinv in A by lra.
    replace (/ (1 + q) - 1) with (- (q - q * q / (1 + q))) in A by (field; lra). lra. }
  assert (B : q * q / (1 + q) <= 11 / 10 * (q * q)).
  { unfold Rdiv at 1. apply Rle_trans with (q * q * (11 / 10)); [|lra].
    apply Rmult_le_compat_l; [nra|]. apply Rle_trans with (/ (10 / 11)); [|lra].
    apply Rinv_le_contravar; lra. }
  replace (ln (1 + q) / q - 1) with ((ln (1 + q) - q) / q) by (field; exact N).
  unfold Rdiv. rewrite Rabs_mult. rewrite Rabs_inv.
  assert (A : Rabs (ln (1 + q) - q) <= 11 / 10 * (Rabs q * Rabs q)).
  { rewrite <- Rabs_mult. rewrite (Rabs_right (q * q)) by nra. apply Rabs_le. lra. }
  assert (Pq : 0 < Rabs q) by (apply Rabs_pos_lt; exact N).
  assert (Hq : Rabs q < 1 / 1000000) by (apply Rabs_def1; lra).
  apply Rle_trans with (11 / 10 * (Rabs q * Rabs q) * / Rabs q).
  - apply Rmult_le_compat_r; [left; apply Rinv_0_lt_compat; exact Pq|exact A].
  - replace (11 / 10 * (Rabs q * Rabs q) * / Rabs q) with (11 / 10 * Rabs q) by (field; lra). lra.
Qed.
Lemma poly_band q : Rabs q < hk_eps -> Rabs (1 - q / 2 + q * q / 3 - q * q * q / 4 - 1) <= hk_eps.
Proof.
  unfold hk_eps. intros H. apply Rabs_def2 in H. apply Rabs_le.
  assert (0 <= q * q <= 1 / 1000000 * (1 / 1000000)) by nra.
  assert (- (1 / 1000000 * (1 / 1000000)) <= q * q * q <= 1 / 1000000 * (1 / 1000000)) by nra.
  lra.
Qed.
Lemma band_core l2 m2 T x y lx ly z h : 0 < x -> 0 < y -> x <> y -> 0 <= m2 ->
  lx = ln x -> ly = ln y -> z = ly - h ->
  Rabs (h - log1p (x / y - 1) / (x / y - 1)) <= 3 * hk_eps ->
  Rabs (- (l2 * T + m2 * z) / (x * y) * (1 / 2) - ((m2 * lx + l2 * T) / x - (m2 * ly + l2 * T) / y) / (2 * (x - y)))
  <= 3 / 2 * hk_eps * m2 / (x * y).
Proof.
  intros Hx Hy N Hm -> -> -> HB.
  set (hs := log1p (x / y - 1) / (x / y - 1)) in *.
  assert (E := hk_core l2 m2 T x y (ln x) (ln y) (ln y - hs) ltac:(lra) ltac:(lra) (hk_z x y Hx Hy N)).
  rewrite <- E.
  replace (- (l2 * T + m2 * (ln y - h)) / (x * y) * (1 / 2)
    - 2 * (x - y) * (- (l2 * T + m2 * (ln y - hs)) / (x * y) * (1 / 2)) / (2 * (x - y)))
    with (m2 * (h - hs) * (/ (x * y) * (1 / 2))) by (field; split; [lra|split; lra]).
  assert (Pxy : 0 < / (x * y)) by (apply Rinv_0_lt_compat; nra).
  rewrite !Rabs_mult. rewrite (Rabs_right m2), (Rabs_right (/ (x * y))), (Rabs_right (1 / 2)) by lra.
  apply Rle_trans with (m2 * (3 * hk_eps) * (/ (x * y) * (1 / 2))).
  - apply Rmult_le_compat_r; [nra|]. apply Rmult_le_compat_l; assumption.
  - right. field. lra.
Qed.
Theorem band m d n S : pairs d n -> 0 <= mu m -> (forall i, (i < d)%nat -> 0 < S i) ->
  let (i, j) := pair_of n in 1 / 1000000 <= S i / S j -> S i <> S j ->
  Rabs (hk_bneg m d S n - (hk_dpsi m d S i - hk_dpsi m d S j) / (2 * (S i - S j)))
  <= 3 * hk_eps * mu m / (S i * S j).
Proof.
  intros Hp Hm Hpos.
  assert (Hp0 : 0 <= 3 * hk_eps) by (unfold hk_eps; lra).
  destruct Hp as [[-> ->] | [-> H]].
  - assert (P0 := Hpos 0%nat ltac:(lia)). assert (P1 := Hpos 1%nat ltac:(lia)). simpl. intros Hr N.
    unfold hk_bneg2, hk_dpsi, s_log. simpl. rewrite (Rabs_right (S 0%nat)), (Rabs_right (S 1%nat)) by lra.
    rewrite Rmax_left by (unfold hk_eps; lra).
    replace (0 + ln (S 0%nat) + ln (S 1%nat)) with (ln (S 0%nat) + ln (S 1%nat)) by ring.
    replace (1 * S 0%nat * S 1%nat) with (S 0%nat * S 1%nat) by ring.
    replace (3 * hk_eps * mu m / (S 0%nat * S 1%nat)) with (3 / 2 * hk_eps * (mu m + mu m) / (S 0%nat * S 1%nat)) by (field; lra).
    assert (Nq : S 0%nat / S 1%nat - 1 <> 0).
    { intros E. apply N. replace (S 0%nat) with ((S 0%nat / S 1%nat - 1 + 1) * S 1%nat) by (field; lra). rewrite E. ring. }
    destruct (Rlt_dec (Rabs (S 0%nat / S 1%nat - 1)) hk_eps) as [C|C].
    + apply (band_core _ _ _ _ _ _ _ _ 1); try assumption; try lra; try reflexivity; [field; lra|].
      assert (A := ln_band _ C Nq). fold (log1p (S 0%nat / S 1%nat - 1)) in A. rewrite Rabs_minus_sym. unfold hk_eps in *; lra.
    + apply (band_core _ _ _ _ _ _ _ _ (log1p (S 0%nat / S 1%nat - 1) / (S 0%nat / S 1%nat - 1))); try assumption; try lra; try reflexivity.
      * set (hh := log1p _ / _). field; lra.
      * rewrite Rminus_diag_eq, Rabs_R0 by reflexivity. exact Hp0.
  - assert (Hab : forall a b, (a < b)%nat -> (b < 3)%nat -> 1 / 1000000 <= S a / S b -> S a <> S b ->
       Rabs (hk_bneg3 m S a b - (hk_dpsi m 3 S a - hk_dpsi m 3 S b) / (2 * (S a - S b))) <= 3 * hk_eps * mu m / (S a * S b)).
    { intros a b Ha Hb Hr N. assert (Pa := Hpos a ltac:(lia)). assert (Pb := Hpos b Hb).
      unfold hk_bneg3, hk_dpsi. set (T := vsum 3 (s_log S)). unfold s_log. rewrite (Rabs_right (S a)), (Rabs_right (S b)) by lra.
      replace (3 * hk_eps * mu m / (S a * S b)) with (3 / 2 * hk_eps * (mu m + mu m) / (S a * S b)) by (field; lra).
      assert (Nq : S a / S b - 1 <> 0).
      { intros E. apply N. replace (S a) with ((S a / S b - 1 + 1) * S b) by (field; lra). rewrite E. ring. }
      unfold diff_interlock_log_over_diff, diff_log_over_diff.
      apply (band_core _ _ _ _ _ _ _ _ (log_1px_over_x (S a / S b - 1) hk_eps)); try assumption; try lra; try reflexivity.
      - set (hh := log_1px_over_x _ _). field; lra.
      - unfold log_1px_over_x.
        destruct (Rlt_dec (Rabs (S a / S b - 1)) hk_eps) as [C|C].
        + assert (A := ln_band _ C Nq). fold (log1p (S a / S b - 1)) in A. assert (B := poly_band _ C).
          set (p := 1 - _ + _ - _) in *. set (l := log1p _ / _) in *.
          replace (p - l) with ((p - 1) + - (l - 1)) by ring.
          eapply Rle_trans; [apply Rabs_triang|]. rewrite Rabs_Ropp. unfold hk_eps in *; lra.
        + rewrite Rminus_diag_eq, Rabs_R0 by reflexivity. exact Hp0. }
    destruct n as [|[|[|n]]]; try lia; simpl; apply Hab; lia.
Qed.
