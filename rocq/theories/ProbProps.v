(** C94: sampling by inversion of a distribution function. *)
From Coq Require Import Reals Arith Lra Lia.
From Verif Require Import ProbModel ProbSpec ProbProofs.
Local Open Scope R_scope.

(** PDF returns the Poisson probability and the normal density. *)
Theorem C94_densities : (forall n k, pdf_poisson n k = poisson (IZR n) k) /\ (forall u o x, o <> 0 -> pdf_normal u o x = gauss u o (INR x)).
Proof. split; [exact pdf_poisson_value|exact pdf_normal_value]. Qed.
Print Assumptions C94_densities.

(** rand_p with a whole parameter returns the least number whose distribution function exceeds the uniform number, if that is below 1. *)
Theorem C94_poisson_partial n u : (0 <= n)%Z -> 0 <= u < 1 ->
  exists x, forall y, returns (fun fuel => rand_p fuel (IZR n) u) y <-> y = x /\ least (fun k => u < poisson_cdf (IZR n) k) x.
Proof.
  intros N [U0 U1]. destruct (poisson_cdf_exceeds (IZR n) u U1) as [m M].
  assert (A : forall k, added (pdf_poisson n) (exp (-1 * IZR n)) k = poisson_cdf (IZR n) k) by (intros; rewrite added_poisson, poisson_0; replace (-1 * IZR n) with (- IZR n) by lra; lra).
  unfold rand_p. rewrite to_int_IZR by exact N.
  destruct (loop_finds (pdf_poisson n) u (exp (-1 * IZR n)) m) as (x & L & P & Q); [rewrite A; exact M|].
  exists x. assert (S : least (fun k => u < poisson_cdf (IZR n) k) x) by (split; [rewrite <- A; exact P|intros y Hy; rewrite <- A; exact (Q y Hy)]).
  intros y. split.
  - intros [fuel F]. split; [|exact S]. apply (loop_result _ _ (exp (-1 * IZR n)) fuel 0 y) in F. destruct F as (_ & B & C). apply (least_unique _ _ _) with (2 := S).
    split; [rewrite <- A; exact B|]. intros z Hz. rewrite <- A. apply Rle_not_lt, C. lia.
  - intros [-> _]. exists x. exact L.
Qed.
Print Assumptions C94_poisson_partial.

(** If rand() returns RAND_MAX the loop never ends. *)
Theorem C94_poisson_one_refuted n : (0 <= n)%Z -> never_returns (fun fuel => rand_p fuel (IZR n) 1).
Proof.
  intros N fuel. unfold rand_p. rewrite to_int_IZR by exact N. apply (loop_stuck _ _ (exp (-1 * IZR n))) with (y := 0%nat). intros y. rewrite added_poisson, poisson_0.
  replace (-1 * IZR n) with (- IZR n) by lra. pose proof (poisson_cdf_le_1 (IZR n) y ltac:(apply IZR_le; exact N)). lra.
Qed.
Print Assumptions C94_poisson_one_refuted.

(** A parameter that is not whole is truncated in the terms but not in the first one: for every such parameter there is a bound below 1
    from which on the loop never ends; below 1 the bound is the probability of 0. *)
Theorem C94_poisson_fraction_refuted lambda : 0 <= lambda -> lambda <> IZR (to_int lambda) ->
  exists b, b < 1 /\ (lambda < 1 -> b = exp (- lambda)) /\ forall u, b <= u -> never_returns (fun fuel => rand_p fuel lambda u).
Proof.
  intros L N. destruct (to_int_bounds lambda L) as [I [B1 B2]]. set (n := to_int lambda) in *.
  exists (exp (- lambda) - exp (- IZR n) + 1). split; [|split].
  - assert (exp (- lambda) < exp (- IZR n)) by (apply exp_increasing; lra). lra.
  - intros L1. assert (n = 0%Z) as -> by (assert (n < 1)%Z; [apply lt_IZR; lra|lia]). rewrite Ropp_0, exp_0. lra.
  - intros u U fuel. unfold rand_p. fold n. apply (loop_stuck _ _ (exp (-1 * lambda))) with (y := 0%nat). intros y. rewrite added_poisson, poisson_0.
    replace (-1 * lambda) with (- lambda) by lra. pose proof (poisson_cdf_le_1 (IZR n) y ltac:(apply IZR_le; exact I)). lra.
Qed.
Print Assumptions C94_poisson_fraction_refuted.

(** rand_normal starts at 1 and only counts up: it returns the least number x >= 1 at which the densities of 1 ... x add up to more than
    the uniform number, so never 0 or a negative number ... *)
Theorem C94_normal_range u o val x : 0 <= val -> o <> 0 -> returns (fun fuel => rand_normal fuel u o val) x ->
  (1 <= x)%nat /\ least (fun k => val < sum_f_R0 (fun i => match i with O => 0 | _ => gauss u o (INR i) end) k) x.
Proof.
  intros V O [fuel F]. apply (loop_result _ _ 0 fuel 0 x) in F. destruct F as (_ & B & C).
  assert (E : forall k, added (pdf_normal u o) 0 k = sum_f_R0 (fun i => match i with O => 0 | _ => gauss u o (INR i) end) k).
  { intros k. rewrite added_S. apply sum_eq. intros [|i] _; [reflexivity|]. apply pdf_normal_value. exact O. }
  split; [destruct x; [cbn [added] in B; lra|lia]|]. split; [rewrite <- E; exact B|]. intros y Hy. rewrite <- E. apply Rle_not_lt, C. lia.
Qed.
Print Assumptions C94_normal_range.

(** ... and for the standard normal distribution, or any with a smaller mean, it does not return for uniform numbers from 3/4 on. *)
Theorem C94_normal_refuted u val : u <= 0 -> 3 / 4 <= val -> never_returns (fun fuel => rand_normal fuel u 1 val).
Proof.
  intros U V fuel. unfold rand_normal. apply (loop_stuck _ _ 0) with (y := 0%nat). intros y. pose proof (added_normal u y U). pose proof (pow_le (16 / 25) y ltac:(lra)). lra.
Qed.
Print Assumptions C94_normal_refuted.

(** rand_anti_normal returns 1 or 2, whatever the mean, if the standard deviation is at least 1. *)
Theorem C94_anti_normal u o val : 1 <= o -> 0 <= val <= 1 -> exists x, (x = 1 \/ x = 2)%nat /\ returns (fun fuel => rand_anti_normal fuel u o val) x.
Proof.
  intros O [V0 V1].
  assert (A : forall x, 7 / 12 <= anti_normal_pdf u o x <= 1).
  { intros x. change (anti_normal_pdf u o x) with (1 - pdf_normal u o x). rewrite pdf_normal_value by lra. pose proof (gauss_le_half u o (INR x) O). lra. }
  destruct (loop_finds (anti_normal_pdf u o) val 0 2) as (x & L & P & Q); [cbn [added]; pose proof (A 1%nat); pose proof (A 2%nat); lra|].
  exists x. split; [|exists x; exact L]. destruct x as [|[|[|x]]]; [cbn in P; lra|now left|now right|]. exfalso. apply (Q 2%nat); [lia|]. cbn [added]. pose proof (A 1%nat). pose proof (A 2%nat). lra.
Qed.
Print Assumptions C94_anti_normal.

(** The parameter 1/2 is not whole; rand_p(1/2) with the uniform number 9/10 never returns. *)
Example C94_ex : never_returns (fun fuel => rand_p fuel (1 / 2) (9 / 10)).
Proof.
  assert (T : to_int (1 / 2) = 0%Z) by (unfold to_int; destruct (Rle_dec 0 (1 / 2)); [|lra]; unfold Int_part; rewrite <- (tech_up (1 / 2) 1); [reflexivity|lra|lra]).
  destruct (C94_poisson_fraction_refuted (1 / 2)) as (b & _ & B & H); [lra|rewrite T; lra|]. apply H. rewrite B by lra. pose proof exp_half. lra.
Qed.
