(** C94: lemmas. *)
From Coq Require Import Reals Arith Lra Lia.
From Verif Require Import ProbModel ProbSpec.
Local Open Scope R_scope.

(** what the loop has added up after x iterations *)
Fixpoint added (pdf : nat -> R) (start : R) (x : nat) : R := match x with O => start | S y => added pdf start y + pdf (S y) end.
Lemma loop_returns pdf val start x : (forall y, (y < x)%nat -> added pdf start y <= val) -> val < added pdf start x ->
  forall k y, (y + k = x)%nat -> loop k pdf val (added pdf start y) y = Some x.
Proof.
  intros L U. induction k; intros y E; cbn [loop]; destruct (Rge_dec val (added pdf start y)) as [G|G].
  - replace y with x in G by lia. lra.
  - f_equal. lia.
  - change (added pdf start y + pdf (S y)) with (added pdf start (S y)). apply IHk. lia.
  - exfalso. apply G. apply Rle_ge, L. lia.
Qed.
Lemma loop_stuck pdf val start : (forall y, added pdf start y <= val) -> forall k y, loop k pdf val (added pdf start y) y = None.
Proof.
  intros L. induction k; intros y; cbn [loop]; (destruct (Rge_dec val (added pdf start y)) as [G|G]; [|exfalso; apply G, Rle_ge, L]); [reflexivity|apply (IHk (S y))].
Qed.
Lemma loop_result pdf val start : forall k y x, loop k pdf val (added pdf start y) y = Some x -> (y <= x)%nat /\ val < added pdf start x /\ forall z, (y <= z < x)%nat -> added pdf start z <= val.
Proof.
  induction k; intros y x H; cbn [loop] in H; destruct (Rge_dec val (added pdf start y)) as [G|G].
  - discriminate.
  - injection H as <-. split; [lia|]. split; [lra|]. intros z Hz. lia.
  - apply (IHk (S y)) in H. destruct H as (A & B & C). split; [lia|]. split; [exact B|]. intros z Hz. destruct (Nat.eq_dec z y) as [-> |N]; [lra|]. apply C. lia.
  - injection H as <-. split; [lia|]. split; [lra|]. intros z Hz. lia.
Qed.
(** the loop finds the least number as soon as the sums exceed val somewhere *)
Lemma loop_finds pdf val start n : val < added pdf start n -> exists x, loop x pdf val start 0 = Some x /\ least (fun x => val < added pdf start x) x.
Proof.
  intros H. assert (E : exists x, least (fun x => val < added pdf start x) x).
  { induction n as [n IH] using lt_wf_ind. destruct (Rlt_dec val (added pdf start 0)) as [Z|Z]; [exists 0%nat; split; [exact Z|intros; lia]|].
    assert (D : forall m, (exists y, (y < m)%nat /\ val < added pdf start y) \/ forall y, (y < m)%nat -> ~ val < added pdf start y).
    { induction m; [right; intros; lia|]. destruct IHm as [(y & L & P)|N]; [left; exists y; split; [lia|exact P]|].
      destruct (Rlt_dec val (added pdf start m)) as [Q|Q]; [left; exists m; split; [lia|exact Q]|right; intros y Hy; destruct (Nat.eq_dec y m) as [-> |]; [exact Q|apply N; lia]]. }
    destruct (D n) as [(y & L & P)|N]; [apply (IH y L P)|exists n; split; assumption]. }
  destruct E as (x & P & Q). exists x. split; [|split; assumption].
  apply (loop_returns pdf val start x) with (y := 0%nat); [intros y Hy; apply Rnot_lt_le, Q, Hy|exact P|lia].
Qed.
Lemma least_unique P x y : least P x -> least P y -> x = y.
Proof. intros [A B] [C D]. destruct (lt_eq_lt_dec x y) as [[L|E]|L]; [exfalso; exact (D x L A)|exact E|exfalso; exact (B y L C)]. Qed.

(** Poisson *)
Lemma factors_power n k : factors n k = IZR n ^ k / INR (fact k).
Proof.
  induction k; cbn [factors]; [cbn; lra|]. rewrite IHk. change (fact (S k)) with (S k * fact k)%nat. rewrite mult_INR. cbn [pow]. pose proof (INR_fact_neq_0 k). pose proof (not_0_INR (S k) ltac:(lia)). field. split; assumption.
Qed.
Lemma pdf_poisson_value n k : pdf_poisson n k = poisson (IZR n) k.
Proof. unfold pdf_poisson, poisson. rewrite factors_power. do 2 f_equal. lra. Qed.
Lemma poisson_nonneg l k : 0 <= l -> 0 <= poisson l k.
Proof. intros L. unfold poisson. apply Rmult_le_pos; [|left; apply exp_pos]. apply Rmult_le_pos; [apply pow_le; exact L|]. left. apply Rinv_0_lt_compat, INR_fact_lt_0. Qed.
Lemma poisson_0 l : poisson l 0 = exp (- l).
Proof. unfold poisson. cbn. lra. Qed.
Lemma poisson_sum l : Un_cv (poisson_cdf l) 1.
Proof.
  unfold poisson_cdf. assert (E : Un_cv (fun N => sum_f_R0 (fun i => / INR (fact i) * l ^ i) N) (exp l)).
  { unfold exp. destruct (exist_exp l) as [x H]. cbn. exact H. }
  replace 1 with (exp l * exp (- l)) by (rewrite <- exp_plus, Rplus_opp_r; apply exp_0).
  assert (C : Un_cv (fun _ => exp (- l)) (exp (- l))) by (intros e He; exists 0%nat; intros; unfold R_dist; rewrite Rminus_diag_eq, Rabs_R0; [exact He|reflexivity]).
  apply (Un_cv_ext (fun N => sum_f_R0 (fun i => / INR (fact i) * l ^ i) N * exp (- l))); [|apply CV_mult; assumption].
  intros N. rewrite Rmult_comm, scal_sum. apply sum_eq. intros i _. unfold poisson. unfold Rdiv. rewrite (Rmult_comm (l ^ i)). reflexivity.
Qed.
Lemma poisson_cdf_le_1 l k : 0 <= l -> poisson_cdf l k <= 1.
Proof. intros L. apply (sum_incr (poisson l) k 1 (poisson_sum l)). intros n. apply poisson_nonneg; exact L. Qed.
Lemma poisson_cdf_exceeds l u : u < 1 -> exists n, u < poisson_cdf l n.
Proof. intros U. destruct (poisson_sum l (1 - u) ltac:(lra)) as [n N]. exists n. specialize (N n ltac:(lia)). unfold R_dist in N. apply Rabs_def2 in N. lra. Qed.
Lemma added_poisson n start k : added (pdf_poisson n) start k = start - poisson (IZR n) 0 + poisson_cdf (IZR n) k.
Proof. unfold poisson_cdf. induction k; cbn [added sum_f_R0]; [lra|]. rewrite IHk, pdf_poisson_value. lra. Qed.
Lemma to_int_IZR n : (0 <= n)%Z -> to_int (IZR n) = n.
Proof.
  intros N. unfold to_int. destruct (Rle_dec 0 (IZR n)) as [_|H]; [|exfalso; apply H, IZR_le; exact N]. unfold Int_part. rewrite <- (tech_up (IZR n) (n + 1)); [lia| |]; rewrite plus_IZR; lra.
Qed.
Lemma to_int_bounds l : 0 <= l -> (0 <= to_int l)%Z /\ IZR (to_int l) <= l < IZR (to_int l) + 1.
Proof.
  intros L. unfold to_int. destruct (Rle_dec 0 l) as [_|H]; [|contradiction]. destruct (base_Int_part l) as [A B]. split; [|lra].
  apply Z.lt_succ_r. replace (Z.succ (Int_part l)) with (Int_part l + 1)%Z by lia. apply lt_IZR. rewrite plus_IZR. lra.
Qed.

(** normal *)
Lemma root_2pi : 12 / 5 <= sqrt (2 * PI).
Proof.
  replace (12 / 5) with (sqrt (12 / 5 * (12 / 5))) by (apply sqrt_square; lra). apply sqrt_le_1_alt. pose proof PI2_3_2. lra.
Qed.
Lemma pdf_normal_value u o x : o <> 0 -> pdf_normal u o x = gauss u o (INR x).
Proof.
  intros O. unfold pdf_normal, gauss. pose proof root_2pi. replace (- (INR x - u) * (INR x - u) / 2 / o / o) with (- ((INR x - u) ^ 2 / (2 * o ^ 2))) by (field; exact O).
  field. split; [lra|exact O].
Qed.
Lemma exp_half : exp (- (1 / 2)) <= 16 / 25.
Proof.
  assert (E : 25 / 16 <= exp (1 / 2)).
  { replace (1 / 2) with (1 / 4 + 1 / 4) by lra. rewrite exp_plus. pose proof (exp_ineq1 (1 / 4) ltac:(lra)). nra. }
  rewrite exp_Ropp. replace (16 / 25) with (/ (25 / 16)) by lra. apply Rinv_le_contravar; lra.
Qed.
Lemma exp_le x y : x <= y -> exp x <= exp y.
Proof. intros [L| ->]; [left; apply exp_increasing; exact L|right; reflexivity]. Qed.
Lemma gauss_power m x : m <= 0 -> (1 <= x)%nat -> exp (- ((INR x - m) ^ 2 / (2 * 1 ^ 2))) <= (16 / 25) ^ x.
Proof.
  intros M X. apply Rle_trans with (exp (- (1 / 2)) ^ x).
  - assert (P : exp (- (1 / 2)) ^ x = exp (INR x * - (1 / 2))).
    { clear X. induction x; [cbn [pow INR]; rewrite Rmult_0_l, exp_0; reflexivity|]. cbn [pow]. rewrite IHx, S_INR, <- exp_plus. f_equal. lra. }
    rewrite P. apply exp_le. assert (1 <= INR x) by (apply (le_INR 1); exact X). nra.
  - apply pow_incr. split; [left; apply exp_pos|exact exp_half].
Qed.
Lemma added_normal m k : m <= 0 -> added (pdf_normal m 1) 0 k <= 20 / 27 * (1 - (16 / 25) ^ k).
Proof.
  intros M. induction k; [cbn; lra|]. cbn [added]. rewrite pdf_normal_value by lra. unfold gauss. pose proof (gauss_power m (S k) M ltac:(lia)) as G. pose proof root_2pi as R.
  assert (exp (- ((INR (S k) - m) ^ 2 / (2 * 1 ^ 2))) / (1 * sqrt (2 * PI)) <= 5 / 12 * (16 / 25) ^ S k).
  { unfold Rdiv at 1. rewrite Rmult_comm. apply Rmult_le_compat; [left; apply Rinv_0_lt_compat; lra|left; apply exp_pos| |exact G]. replace (5 / 12) with (/ (12 / 5)) by lra. apply Rinv_le_contravar; lra. }
  cbn [pow] in *. lra.
Qed.
Lemma added_S pdf k : added pdf 0 k = sum_f_R0 (fun i => match i with O => 0 | _ => pdf i end) k.
Proof. induction k; [reflexivity|]. cbn [added sum_f_R0]. now rewrite IHk. Qed.
Lemma gauss_le_half u o x : 1 <= o -> 0 <= gauss u o x <= 5 / 12.
Proof.
  intros O. unfold gauss. pose proof root_2pi as R. assert (12 / 5 <= o * sqrt (2 * PI)) by nra. split.
  - apply Rmult_le_pos; [left; apply exp_pos|left; apply Rinv_0_lt_compat; lra].
  - assert (E : exp (- ((x - u) ^ 2 / (2 * o ^ 2))) <= 1).
    { rewrite <- exp_0. apply exp_le. assert (0 <= (x - u) ^ 2 / (2 * o ^ 2)); [|lra]. apply Rmult_le_pos; [apply pow2_ge_0|left; apply Rinv_0_lt_compat; nra]. }
    pose proof (exp_pos (- ((x - u) ^ 2 / (2 * o ^ 2)))). replace (5 / 12) with (1 * / (12 / 5)) by lra. apply Rmult_le_compat; [lra|left; apply Rinv_0_lt_compat; lra|exact E|apply Rinv_le_contravar; lra].
Qed.
