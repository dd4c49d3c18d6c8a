(* C82: the plastic return mappings deliver admissible stresses and leave elastic
   states alone. *)
From Coq Require Import Reals Arith Bool Lia Lra Psatz.
From Verif Require Import CmModel CmProofs PlModel PlSpec PlProofs PlProofs2.
Local Open Scope R_scope.

(* ================ NonAssociativeDruckerPrager ================ *)

(* After the projection the Kirchhoff stress of the Hencky material lies in the
   cone: the length of its deviator is at most - tau0 times its trace. *)
Theorem C82_drucker_prager_admissible tiny tau0 m d S :
  (0 < d)%nat -> 0 < mu m -> 0 <= INR d * lam m + 2 * mu m -> 0 <= tau0 -> 0 <= tiny ->
  let tau := hencky_stress m d (fst (dp_project tiny tau0 m d S)) in
  spread d tau <= - tau0 * vsum d tau.
Proof. intros Hd Hm Hl Ht Hy tau. assert (A := dp_admissible tiny tau0 m d S Hd Hm Hl Ht Hy). unfold dp_yield in A. unfold tau. lra. Qed.
Print Assumptions C82_drucker_prager_admissible.

(* The friction coefficient is non-negative for every friction angle up to 180 degrees. *)
Theorem C82_drucker_prager_friction fa : 0 <= fa <= 180 -> 0 <= dp_tau0 fa.
Proof.
  intros H. unfold dp_tau0. assert (B := SIN_bound (fa / 180 * PI)). assert (Q := PI_RGT_0).
  assert (0 <= sin (fa / 180 * PI)). { apply sin_ge_0; [apply Rmult_le_pos; lra|]. assert (fa / 180 <= 1) by lra. nra. }
  apply Rmult_le_pos; [apply Rmult_le_pos; [apply sqrt_pos|lra]|left; apply Rinv_0_lt_compat; lra].
Qed.
Print Assumptions C82_drucker_prager_friction.

(* Compressed, sheared states outside of the cone are moved to its surface along
   the deviator, at constant volume; those inside are left alone (the flag tells
   which). *)
Theorem C82_drucker_prager_flow_partial tiny tau0 m d S :
  (0 < d)%nat -> 0 < mu m -> 0 <= INR d * lam m + 2 * mu m -> 0 <= tau0 -> 0 <= tiny -> positive d S ->
  tiny < spread d (fun i => ln (S i)) -> vprod d S <= 1 ->
  let tau := hencky_stress m d in let r := dp_project tiny tau0 m d S in
  (spread d (tau S) <= - tau0 * vsum d (tau S) -> r = (S, false)) /\
  (- tau0 * vsum d (tau S) < spread d (tau S) ->
     snd r = true /\ positive d (fst r) /\ vprod d (fst r) = vprod d S /\
     spread d (tau (fst r)) = - tau0 * vsum d (tau (fst r)) /\
     exists k, 0 <= k <= 1 /\ forall i, (i < d)%nat ->
       ln (fst r i) = ln (S i) - k * (ln (S i) - mean d (fun i => ln (S i)))).
Proof.
  intros Hd Hm Hl Ht Hy HS HN HV tau r.
  assert (T : vsum d (fun i => ln (S i)) <= 0).
  { rewrite vsum_ln by exact HS. rewrite <- ln_1. assert (V := vprod_pos d S HS).
    destruct HV as [HV|HV]; [left; apply ln_increasing; assumption|rewrite HV; lra]. }
  destruct (dp_cases tiny tau0 m d S Hd Hm Hl Ht Hy) as [([C|C] & _)|[(_ & _ & Y & E)|(_ & _ & Y & B & (k & Hk & K) & A & D)]]; [lra|lra| |].
  - split; [intros _; exact E|]. unfold dp_yield in Y. unfold tau. intros; lra.
  - split; [unfold dp_yield in Y; unfold tau; intros; lra|]. intros _. fold r in B, K, A, D.
    assert (PR : positive d (fst r)) by (intros i Hi; rewrite K by exact Hi; apply exp_pos).
    split; [exact B|]. split; [exact PR|]. split; [|split].
    + apply ln_inv; [apply vprod_pos, PR|apply vprod_pos, HS|]. rewrite <- !vsum_ln by assumption. exact A.
    + unfold tau. rewrite hencky_spread, hencky_sum, A, D by assumption. ring.
    + exists k. split; [exact Hk|]. intros i Hi. rewrite K by exact Hi. apply ln_exp.
Qed.
Print Assumptions C82_drucker_prager_flow_partial.
Example C82_drucker_prager_example : let S : vec := fun i => match i with O => exp (-3) | _ => exp 1 end in
  positive 2 S /\ vprod 2 S <= 1 /\ 1 / 1000 < spread 2 (fun i => ln (S i)) /\
  - (1/2) * vsum 2 (hencky_stress (Lame 1 0) 2 S) < spread 2 (hencky_stress (Lame 1 0) 2 S).
Proof.
  intros S.
  assert (Q : spread 2 (fun i => ln (S i)) = sqrt 8).
  { unfold spread, mean, S; simpl. rewrite !ln_exp. f_equal. field. }
  assert (L : 2 < sqrt 8) by (rewrite <- (sqrt_square 2) at 1 by lra; apply sqrt_lt_1; lra).
  split; [intros i _; unfold S; destruct i; apply exp_pos|]. split; [|split].
  - unfold S; simpl. rewrite Rmult_1_l, <- exp_plus. apply (Rle_trans _ (exp 0)); [left; apply exp_increasing; lra|rewrite exp_0; lra].
  - lra.
  - rewrite hencky_spread, hencky_sum by (try lia; simpl; lra). rewrite Q. unfold S; simpl. rewrite !ln_exp. lra.
Qed.

(* Uniformly compressed states (no shear at all) lie well inside the cone, yet the
   projection resets them to the undeformed state and reports plastic flow. *)
Theorem C82_drucker_prager_elastic_refuted : ~ forall tiny tau0 m d S,
  (0 < d)%nat -> 0 < mu m -> 0 <= INR d * lam m + 2 * mu m -> 0 <= tau0 -> 0 <= tiny -> positive d S ->
  spread d (hencky_stress m d S) <= - tau0 * vsum d (hencky_stress m d S) ->
  same d (fst (dp_project tiny tau0 m d S)) S.
Proof.
  intros H.
  assert (E : spread 3 (fun _ : nat => ln (exp (-1))) = 0) by (apply spread_const; lia).
  assert (A := H 0 (1/2) (Lame 1 0) 3%nat (fun _ => exp (-1)) ltac:(lia) ltac:(simpl; lra) ltac:(simpl; lra) ltac:(lra) ltac:(lra)
    (fun _ _ => exp_pos _)).
  rewrite hencky_spread, hencky_sum, E in A by (try lia; simpl; lra).
  rewrite vsum_const, ln_exp in A. assert (I3 : INR 3 = 3) by (simpl; lra). rewrite I3 in A. simpl (lam _) in A. simpl (mu _) in A.
  specialize (A ltac:(lra) 0%nat ltac:(lia)). revert A.
  destruct (dp_cases 0 (1/2) (Lame 1 0) 3 (fun _ => exp (-1)) ltac:(lia) ltac:(simpl; lra) ltac:(simpl; lra) ltac:(lra) ltac:(lra))
    as [(_ & R & _)|[(N & _)|(N & _)]]; [|rewrite E in N; lra|rewrite E in N; lra].
  rewrite R. intros A. assert (exp (-1) < exp 0) by (apply exp_increasing; lra). rewrite exp_0 in H0. lra.
Qed.
Print Assumptions C82_drucker_prager_elastic_refuted.

(* Projecting twice is projecting once, unless the first projection leaves a shear
   within the tolerance of zero. *)
Theorem C82_drucker_prager_idempotent_partial tiny tau0 m d S :
  (0 < d)%nat -> 0 < mu m -> 0 <= INR d * lam m + 2 * mu m -> 0 <= tau0 -> 0 <= tiny ->
  let S' := fst (dp_project tiny tau0 m d S) in
  tiny < spread d (fun i => ln (S' i)) \/ S' = (fun _ => 1) ->
  fst (dp_project tiny tau0 m d S') = S'.
Proof.
  intros Hd Hm Hl Ht Hy S' HN.
  destruct (dp_cases tiny tau0 m d S' Hd Hm Hl Ht Hy) as [(C & E & _)|[(_ & _ & _ & E)|(_ & _ & Y & _)]].
  - destruct HN as [HN|HN]; [|rewrite E; symmetry; exact HN].
    destruct C as [C|C]; [lra|]. exfalso.
    destruct (dp_cases tiny tau0 m d S Hd Hm Hl Ht Hy) as [(_ & E1 & _)|[(_ & T & _ & E1)|(_ & T & _ & _ & _ & A & _)]].
    + fold S' in E1. rewrite E1 in C. rewrite (vsum_ext d _ (fun _ => 0)), vsum_0 in C by (intros; apply ln_1). lra.
    + unfold S' in C. rewrite E1 in C. simpl in C. lra.
    + fold S' in A. rewrite A in C. lra.
  - rewrite E. reflexivity.
  - exfalso. assert (A := dp_admissible tiny tau0 m d S Hd Hm Hl Ht Hy). fold S' in A. lra.
Qed.
Print Assumptions C82_drucker_prager_idempotent_partial.

(* ================ VonMisesCapped ================ *)

(* The projection limits the length of the deviator of the Hencky stress to
   yieldStress and clamps its trace to [-k1Compress, k1Stretch]; the directions of
   deviators are kept. *)
Theorem C82_capped_result P m d S : (0 < d)%nat -> 0 < mu m -> 0 < INR d * lam m + 2 * mu m ->
  0 <= yieldStress P -> 0 <= k1Compress P -> 0 <= k1Stretch P -> positive d S ->
  let tau := hencky_stress m d in let S' := capped_project P m d S in
  positive d S' /\
  spread d (tau S') = Rmin (yieldStress P) (spread d (tau S)) /\
  vsum d (tau S') = Rmax (- k1Compress P) (Rmin (k1Stretch P) (vsum d (tau S))) /\
  exists k b, 0 <= k <= 1 /\ forall i, (i < d)%nat -> ln (S' i) = k * ln (S i) + b.
Proof. exact (capped_result P m d S). Qed.
Print Assumptions C82_capped_result.

(* Admissible states are left alone, so projecting twice is projecting once. *)
Theorem C82_capped_elastic P m d S : (0 < d)%nat -> 0 < mu m -> 0 < INR d * lam m + 2 * mu m ->
  spread d (hencky_stress m d S) <= yieldStress P ->
  - k1Compress P <= vsum d (hencky_stress m d S) <= k1Stretch P ->
  capped_project P m d S = S.
Proof. exact (capped_idle P m d S). Qed.
Print Assumptions C82_capped_elastic.
Theorem C82_capped_idempotent P m d S : (0 < d)%nat -> 0 < mu m -> 0 < INR d * lam m + 2 * mu m ->
  0 <= yieldStress P -> 0 <= k1Compress P -> 0 <= k1Stretch P -> positive d S ->
  capped_project P m d (capped_project P m d S) = capped_project P m d S.
Proof.
  intros Hd Hm Hl Hy Hc Hs HP. destruct (capped_result P m d S Hd Hm Hl Hy Hc Hs HP) as (_ & A & B & _).
  apply capped_idle; [exact Hd|exact Hm|exact Hl| |].
  - rewrite A. apply Rmin_l.
  - rewrite B. unfold clamp. split; [apply Rmax_l|]. apply Rmax_lub; [lra|apply Rmin_l].
Qed.
Print Assumptions C82_capped_idempotent.
Example C82_capped_example : let m := Lame 1 1 in let S : vec := fun i => match i with O => exp 2 | _ => 1 end in
  positive 3 S /\ vsum 3 (hencky_stress m 3 S) = 10 /\ sqrt 2 < spread 3 (hencky_stress m 3 S).
Proof.
  intros m S. split; [intros i _; unfold S; destruct i; [apply exp_pos|lra]|].
  rewrite hencky_sum, hencky_spread by (try lia; simpl; lra). unfold S; simpl. rewrite ln_exp, ln_1. split; [ring|].
  unfold spread, mean; simpl. rewrite ln_exp, ln_1. replace (2 * 1) with 2 by ring.
  rewrite <- (sqrt_square 2) at 2 by lra. rewrite <- sqrt_mult by lra. apply sqrt_lt_1; lra.
Qed.

(* ================ NonAssociativeVonMises ================ *)

(* After the projection the deviatoric neo-Hookean stress, for the new stretches, is
   at most the (scaled) yield stress; within 1e-4 of it nothing is done.  The sum of
   the squared stretches is kept, the volume does not shrink, and deviators of the
   squared stretches keep their direction. *)
Theorem C82_von_mises_admissible P m d S : (0 < d)%nat -> 0 < mu m -> positive d S ->
  let limit := sqrt (2 / (6 - INR d)) * (tauY P + hardeningCoeff P * alpha P) in
  let r := vm_project P m d S in
  0 <= limit ->
  shear_stress m d (fst r) < limit + 1 / 10000 /\
  (snd r = true -> shear_stress m d (fst r) <= limit).
Proof. intros Hd Hm HS limit r Hl. exact (vm_admissible P m d S Hd Hm Hl HS). Qed.
Print Assumptions C82_von_mises_admissible.
Theorem C82_von_mises_flow P m d S : (0 < d)%nat -> 0 < mu m -> positive d S ->
  let limit := sqrt (2 / (6 - INR d)) * (tauY P + hardeningCoeff P * alpha P) in
  let r := vm_project P m d S in
  0 <= limit ->
  (shear_stress m d S < limit + 1 / 10000 -> r = (S, false)) /\
  (limit + 1 / 10000 <= shear_stress m d S -> snd r = true /\ positive d (fst r) /\
     vsum d (fun i => fst r i * fst r i) = vsum d (fun i => S i * S i) /\ vprod d S <= vprod d (fst r) /\
     exists k b, 0 <= k <= 1 /\ forall i, (i < d)%nat -> fst r i * fst r i = k * (S i * S i) + b).
Proof.
  intros Hd Hm HS limit r Hl. destruct (vm_cases P m d S Hd Hm Hl HS) as [[Y E]|(Y & A & B & _ & C & D & E)].
  - split; [intros _; exact E|]. unfold limit, vm_limit in *. intros; lra.
  - split; [unfold limit, vm_limit in *; intros; lra|]. intros _. auto.
Qed.
Print Assumptions C82_von_mises_flow.

(* The stretches 2 and 1 with mu = 1 and yield stress 1/2: yields, and is moved to
   squared stretches 3 and 2. *)
Definition vm_case : vec := fun i => match i with O => 2 | _ => 1 end.
Lemma vm_case_limit : vm_limit (VonMises (1/2) 0 0) 2 = / 2 * sqrt (1/2).
Proof. unfold vm_limit; simpl. replace (2 / (6 - (1 + 1))) with (1/2) by field. lra. Qed.
Lemma vm_case_shear : shear_stress (Lame 1 0) 2 vm_case = 3 / 4 * sqrt 2.
Proof.
  unfold shear_stress, spread, mean, vm_case; simpl.
  replace (-2 / (1 + 1)) with (Ropp 1) by field. replace (1 * 2 * 1) with 2 by ring.
  rewrite Rpower_Ropp, Rpower_1 by lra.
  match goal with |- context [sqrt ?x] => replace x with ((3/2 * (3/2)) * 2) by field end.
  rewrite sqrt_mult by lra. rewrite sqrt_square by lra. field.
Qed.
Lemma half_root : sqrt (1/2) = / 2 * sqrt 2.
Proof.
  replace (1/2) with ((/2 * / 2) * 2) by field. rewrite sqrt_mult by lra. rewrite sqrt_square by lra. reflexivity.
Qed.
Lemma root2 : 1 < sqrt 2 < 2.
Proof.
  split; [rewrite <- sqrt_1 at 1; apply sqrt_lt_1; lra|]. rewrite <- (sqrt_square 2) at 2 by lra. apply sqrt_lt_1; lra.
Qed.
Example C82_von_mises_example : positive 2 vm_case /\ 0 <= vm_limit (VonMises (1/2) 0 0) 2 /\
  vm_limit (VonMises (1/2) 0 0) 2 + 1 / 10000 <= shear_stress (Lame 1 0) 2 vm_case.
Proof.
  assert (R := root2). rewrite vm_case_limit, vm_case_shear, half_root.
  split; [intros i _; unfold vm_case; destruct i; lra|]. lra.
Qed.
(* The projected stress does not lie on the yield surface, as the mapping intends:
   the new squared stretches are scaled with the old volume, which is not kept. *)
Theorem C82_von_mises_surface_refuted : ~ forall P m d S, (0 < d)%nat -> 0 < mu m -> positive d S ->
  0 <= vm_limit P d -> snd (vm_project P m d S) = true ->
  shear_stress m d (fst (vm_project P m d S)) = vm_limit P d \/ vprod d (fst (vm_project P m d S)) = vprod d S.
Proof.
  intros H. destruct C82_von_mises_example as (HS & HL & HY).
  set (P := VonMises (1/2) 0 0) in *. set (m := Lame 1 0) in *.
  assert (Hm : 0 < mu m) by (simpl; lra).
  destruct (vm_cases P m 2 vm_case ltac:(lia) Hm HL HS) as [[Y _]|(_ & T & PR & A & B & C & D)]; [lra|].
  specialize (H P m 2%nat vm_case ltac:(lia) Hm HS HL T).
  set (S' := fst (vm_project P m 2 vm_case)) in *.
  assert (x0 := PR 0%nat ltac:(lia)). assert (x1 := PR 1%nat ltac:(lia)).
  assert (J0 : vprod 2 vm_case = 2) by (unfold vm_case; simpl; ring).
  assert (Q : spread 2 (fun i => S' i * S' i) = sqrt (1/2)).
  { rewrite J0 in A. replace (-2 / INR 2) with (Ropp 1) in A by (simpl; field). rewrite Rpower_Ropp, Rpower_1 in A by lra.
    unfold P in A. rewrite vm_case_limit in A. simpl (mu m) in A. lra. }
  assert (B' : S' 0%nat * S' 0%nat + S' 1%nat * S' 1%nat = 5).
  { unfold vm_case in B. simpl in B. lra. }
  assert (Q2 : (S' 0%nat * S' 0%nat - S' 1%nat * S' 1%nat) * (S' 0%nat * S' 0%nat - S' 1%nat * S' 1%nat) = 1).
  { assert (Q3 := f_equal (fun z => z * z) Q). cbv beta in Q3. rewrite sqrt_sqrt in Q3 by lra.
    unfold spread in Q3. rewrite sqrt_sqrt in Q3.
    - unfold mean in Q3. simpl in Q3.
      match type of Q3 with ?l = _ => replace l with (1/2 * ((S' 0%nat * S' 0%nat - S' 1%nat * S' 1%nat) * (S' 0%nat * S' 0%nat - S' 1%nat * S' 1%nat))) in Q3 by field end. lra.
    - apply vsum_nonneg. intros i _. exact (Rle_0_sqr _). }
  assert (J2 : vprod 2 S' * vprod 2 S' = 6).
  { simpl. replace (1 * S' 0%nat * S' 1%nat * (1 * S' 0%nat * S' 1%nat)) with ((S' 0%nat * S' 0%nat) * (S' 1%nat * S' 1%nat)) by ring. nra. }
  assert (JP : 0 < vprod 2 S') by (apply vprod_pos, PR).
  destruct H as [H|H].
  - unfold shear_stress in H. rewrite Q in H. replace (-2 / INR 2) with (Ropp 1) in H by (simpl; field).
    rewrite Rpower_Ropp, Rpower_1 in H by exact JP. unfold P in H. rewrite vm_case_limit in H. simpl (mu m) in H.
    assert (R0 : 0 < sqrt (1/2)) by (apply sqrt_lt_R0; lra).
    assert (E : / vprod 2 S' = / 2) by (apply (Rmult_eq_reg_r (sqrt (1/2))); lra).
    assert (E2 : vprod 2 S' = 2) by (rewrite <- (Rinv_involutive (vprod 2 S')), E by lra; field). rewrite E2 in J2. lra.
  - rewrite H, J0 in J2. lra.
Qed.
Print Assumptions C82_von_mises_surface_refuted.

(* ================ SnowPlasticity ================ *)

(* The stretches end up in [1 - thetaC, 1 + thetaS]; those in it are kept, so that
   projecting twice is projecting once. *)
Theorem C82_snow_bounds P mu0 lam0 d S : 0 <= thetaC P -> 0 <= thetaS P ->
  let S' := fst (snow_project P mu0 lam0 d S) in
  (forall i, 1 - thetaC P <= S' i <= 1 + thetaS P) /\
  (forall i, 1 - thetaC P <= S i <= 1 + thetaS P -> S' i = S i) /\
  (forall i T, 1 - thetaC P <= T <= 1 + thetaS P -> Rabs (S' i - S i) <= Rabs (T - S i)) /\
  forall i, fst (snow_project P mu0 lam0 d S') i = S' i.
Proof.
  intros Hc Hs S'.
  assert (A : forall i, 1 - thetaC P <= S' i <= 1 + thetaS P).
  { intros i. unfold S', snow_project. cbv zeta. cbn [fst]. split; [apply Rmax_r|]. apply Rmax_lub; [apply Rmin_r|lra]. }
  assert (B : forall T i, 1 - thetaC P <= T i <= 1 + thetaS P -> fst (snow_project P mu0 lam0 d T) i = T i).
  { intros T i H. unfold snow_project. cbv zeta. cbn [fst]. rewrite Rmin_left, Rmax_left by lra. reflexivity. }
  split; [exact A|]. split; [intros i; apply B|]. split; [|intros i; apply B, A].
  intros i T H. unfold S', snow_project. cbv zeta. cbn [fst]. unfold Rmax, Rmin, Rabs.
  repeat (destruct (Rle_dec _ _) || destruct (Rcase_abs _)); lra.
Qed.
Print Assumptions C82_snow_bounds.

(* Hardening: the moduli are scaled by exp(xi (1 - Jp)) where Jp times the volume of
   the new stretches is the old volume; an elastic step keeps the moduli, plastic
   compression hardens and plastic stretching softens.  The volume is not below 1e-6. *)
Theorem C82_snow_hardening_partial P mu0 lam0 d S : 0 <= thetaC P < 1 -> 0 <= thetaS P -> 0 <= xi_s P ->
  0 <= mu0 -> 0 <= lam0 -> positive d S ->
  let r := snow_project P mu0 lam0 d S in
  1 / 1000000 <= vprod d (fst r) ->
  (exists Jp, Jp * vprod d (fst r) = vprod d S /\
     snd r = (mu0 * exp (xi_s P * (1 - Jp)), lam0 * exp (xi_s P * (1 - Jp)))) /\
  ((forall i, (i < d)%nat -> 1 - thetaC P <= S i <= 1 + thetaS P) -> snd r = (mu0, lam0)) /\
  ((forall i, (i < d)%nat -> S i <= 1 + thetaS P) -> mu0 <= fst (snd r) /\ lam0 <= snd (snd r)) /\
  ((forall i, (i < d)%nat -> 1 - thetaC P <= S i) -> fst (snd r) <= mu0 /\ snd (snd r) <= lam0).
Proof.
  intros Hc Hs Hx Hm Hl HS r HV.
  assert (PV : 0 < vprod d (fst r)) by lra.
  set (Jp := vprod d S / vprod d (fst r)).
  assert (E : snd r = (mu0 * exp (xi_s P * (1 - Jp)), lam0 * exp (xi_s P * (1 - Jp)))).
  { unfold r at 1. unfold snow_project. cbv zeta. cbn [snd]. unfold Jp.
    replace (Rmax (vprod d (fun i => Rmax (Rmin (S i) (1 + thetaS P)) (1 - thetaC P))) (1 / 1000000)) with (vprod d (fst r)); [reflexivity|].
    symmetry. apply Rmax_left. exact HV. }
  assert (JE : Jp * vprod d (fst r) = vprod d S) by (unfold Jp; field; lra).
  assert (S1 : forall i, fst r i = Rmax (Rmin (S i) (1 + thetaS P)) (1 - thetaC P)) by reflexivity.
  assert (PR : positive d (fst r)).
  { intros i Hi. rewrite S1. apply (Rlt_le_trans _ (1 - thetaC P)); [lra|apply Rmax_r]. }
  split; [exists Jp; split; [exact JE|exact E]|].
  assert (EX : forall x, 0 <= x -> 1 <= exp x).
  { intros x [H|H]; [left; rewrite <- exp_0; apply exp_increasing; exact H|rewrite <- H, exp_0; lra]. }
  assert (EX' : forall x, x <= 0 -> exp x <= 1).
  { intros x [H|H]; [left; rewrite <- exp_0; apply exp_increasing; exact H|rewrite H, exp_0; lra]. }
  rewrite E. cbn [fst snd]. split; [|split].
  - intros H. assert (EQ : vprod d (fst r) = vprod d S).
    { apply vprod_ext. intros i Hi. rewrite S1. destruct (H i Hi). rewrite Rmin_left, Rmax_left by lra. reflexivity. }
    assert (Jp = 1) by (apply (Rmult_eq_reg_r (vprod d (fst r))); lra). rewrite H0.
    replace (xi_s P * (1 - 1)) with 0 by ring. rewrite exp_0. f_equal; ring.
  - intros H. assert (LE : vprod d S <= vprod d (fst r)).
    { apply vprod_le; [exact HS|]. intros i Hi. rewrite S1. rewrite Rmin_left by (apply H, Hi). apply Rmax_l. }
    assert (Jp <= 1) by (apply (Rmult_le_reg_r (vprod d (fst r))); lra).
    assert (1 <= exp (xi_s P * (1 - Jp))) by (apply EX, Rmult_le_pos; lra). split; nra.
  - intros H. assert (LE : vprod d (fst r) <= vprod d S).
    { apply vprod_le; [exact PR|]. intros i Hi. rewrite S1. apply Rmax_lub; [apply Rmin_l|apply H, Hi]. }
    assert (1 <= Jp) by (apply (Rmult_le_reg_r (vprod d (fst r))); lra).
    assert (exp (xi_s P * (1 - Jp)) <= 1). { apply EX'. assert (0 <= xi_s P * (Jp - 1)) by (apply Rmult_le_pos; lra). lra. }
    assert (0 < exp (xi_s P * (1 - Jp))) by apply exp_pos. split; nra.
Qed.
Print Assumptions C82_snow_hardening_partial.
Example C82_snow_example : let P := Snow (1/50) (3/400) 10 in let S : vec := fun i => match i with O => 1/2 | _ => 2 end in
  0 <= thetaC P < 1 /\ 0 <= thetaS P /\ 0 <= xi_s P /\ positive 3 S /\
  1 / 1000000 <= vprod 3 (fst (snow_project P 1 1 3 S)) /\ ~ same 3 (fst (snow_project P 1 1 3 S)) S.
Proof.
  intros P S. simpl. split; [lra|]. split; [lra|]. split; [lra|].
  assert (E0 : Rmax (Rmin (1/2) (1 + 3 / 400)) (1 - 1 / 50) = 1 - 1/50) by (rewrite Rmin_left, Rmax_right by lra; reflexivity).
  assert (E1 : Rmax (Rmin 2 (1 + 3 / 400)) (1 - 1 / 50) = 1 + 3/400) by (rewrite Rmin_right, Rmax_left by lra; reflexivity).
  split; [intros i _; unfold S; destruct i; lra|]. split.
  - rewrite E0, E1. lra.
  - intros H. specialize (H 0%nat ltac:(lia)). simpl in H. rewrite E0 in H. lra.
Qed.

(* ================ NonAssociativeCamClay ================ *)

(* Beyond the tips of the ellipse, |pressure| too large: the stretches become equal,
   the pressure becomes that of the tip, and with hardening the product of the
   plastic volume exp(logJp) and the elastic volume is kept. *)
Theorem C82_cam_clay_tips P m d S l : (0 < d)%nat -> INR d < 6 -> 0 < mu m -> 0 < cc_kappa m -> 0 <= beta P -> 0 <= xi P -> positive d S ->
  let kappa := cc_kappa m in let p0 := cc_p0 P m l in let p := pressure kappa (vprod d S) in
  let r := cc_project P m d S l in let S' := fst (fst r) in
  p0 < p \/ p < - (beta P * p0) ->
  snd r = true /\ positive d S' /\ (forall i j, S' i = S' j) /\
  pressure kappa (vprod d S') = Rmax (- (beta P * p0)) (Rmin p0 p) /\
  (hardeningOn P = true -> exp (snd (fst r)) * vprod d S' = exp l * vprod d S) /\
  (hardeningOn P = false -> snd (fst r) = l).
Proof.
  intros Hd H6 Hm HK Hb Hx HS kappa p0 p r S' C.
  assert (Hp : 0 < p0) by (apply p0_pos; assumption). assert (0 <= beta P * p0) by (apply Rmult_le_pos; lra).
  destruct (cc_cases P m d S l Hd H6 Hm HK Hb Hx HS) as [(_ & A & B & D & V & E & F & G)|[(X & _)|(X & _)]];
    [|fold p0 kappa p in X; destruct C; lra|fold p0 kappa p in X; destruct C; lra].
  fold r in A, B, D, V, E, F, G. fold S' in B, D, V, E, F, G. fold p0 kappa p in E, F.
  split; [exact A|]. split; [exact B|]. split; [exact D|]. split; [|split].
  - destruct C as [C|C].
    + rewrite E by exact C. rewrite Rmin_left, Rmax_right by lra. reflexivity.
    + rewrite F by exact C. rewrite Rmin_right, Rmax_left by lra. reflexivity.
  - intros HH. rewrite G, HH. rewrite exp_plus, exp_ln; [field; lra|].
    apply Rmult_lt_0_compat; [apply vprod_pos, HS|apply Rinv_0_lt_compat, V].
  - intros HH. rewrite G, HH. reflexivity.
Qed.
Print Assumptions C82_cam_clay_tips.

(* Between the tips nothing happens inside of the ellipse (up to 1e-4) and outside
   of it the deviatoric stress is reduced to the ellipse, measured with the trial
   volume and trial pressure. *)
Theorem C82_cam_clay_ellipse_partial P m d S l : (0 < d)%nat -> INR d < 6 -> 0 < mu m -> 0 < cc_kappa m -> 0 <= beta P -> 0 <= xi P -> positive d S ->
  let p0 := cc_p0 P m l in let p := pressure (cc_kappa m) (vprod d S) in
  let yield p s := (6 - INR d) / 2 * (1 + 2 * beta P) * (s * s) + slope P * slope P * (p + beta P * p0) * (p - p0) in
  let r := cc_project P m d S l in let S' := fst (fst r) in
  - (beta P * p0) <= p <= p0 ->
  (yield p (shear_stress m d S) < 1 / 10000 -> r = (S, l, false)) /\
  (1 / 10000 <= yield p (shear_stress m d S) -> snd r = true /\ positive d S' /\
     yield p (mu m * Rpower (vprod d S) (-2 / INR d) * spread d (fun i => S' i * S' i)) = 0 /\
     vsum d (fun i => S' i * S' i) = vsum d (fun i => S i * S i)).
Proof.
  intros Hd H6 Hm HK Hb Hx HS p0 p yield r S' C.
  destruct (cc_cases P m d S l Hd H6 Hm HK Hb Hx HS) as [([X|X] & _)|[(_ & Y & E)|(_ & Y & A & B & D & V & _)]].
  - fold p0 p in X. lra.
  - fold p0 p in X. lra.
  - split; [intros _; exact E|]. fold p0 p in Y. unfold cc_yield in Y. unfold yield. intros; lra.
  - fold p0 p in Y. unfold cc_yield in Y. split; [unfold yield; intros; lra|]. intros _. split; [exact A|]. split; [exact B|]. split; [exact D|exact V].
Qed.
Print Assumptions C82_cam_clay_ellipse_partial.

(* But the squared stretches are moved at constant sum, not at constant volume: a
   sheared body expands, and the stress after the projection can be far outside of
   the ellipse. *)
Theorem C82_cam_clay_admissible_refuted : ~ forall P m d S l, (0 < d)%nat -> INR d < 6 -> 0 < mu m -> 0 < cc_kappa m -> 0 <= beta P -> 0 <= xi P -> positive d S ->
  let p0 := cc_p0 P m l in
  let yield p s := (6 - INR d) / 2 * (1 + 2 * beta P) * (s * s) + slope P * slope P * (p + beta P * p0) * (p - p0) in
  let S' := fst (fst (cc_project P m d S l)) in
  yield (pressure (cc_kappa m) (vprod d S')) (shear_stress m d S') < 1.
Proof.
  intros H.
  set (P := CamClay 1 1 0 true). set (m := Lame 1 (1/3)). set (S := fun i : nat => match i with O => 2 | _ => 1/2 end).
  assert (HK : cc_kappa m = 1) by (unfold cc_kappa, m; simpl; field).
  assert (HS : positive 2 S) by (intros i _; unfold S; destruct i; lra).
  assert (HP : cc_p0 P m 0 = 1 / 100000) by (unfold cc_p0; rewrite HK; simpl; ring).
  assert (J : vprod 2 S = 1) by (unfold S; simpl; field).
  assert (I2 : INR 2 = 2) by (simpl; ring).
  specialize (H P m 2%nat S 0 ltac:(lia) ltac:(rewrite I2; lra) ltac:(simpl; lra) ltac:(lra) ltac:(simpl; lra) ltac:(simpl; lra) HS).
  cbv zeta in H.
  assert (R1 : forall e, Rpower 1 e = 1) by (intros e; unfold Rpower; rewrite ln_1, Rmult_0_r; apply exp_0).
  destruct (cc_cases P m 2 S 0 ltac:(lia) ltac:(rewrite I2; lra) ltac:(simpl; lra) ltac:(lra) ltac:(simpl; lra) ltac:(simpl; lra) HS)
    as [([X|X] & _)|[(_ & Y & _)|(_ & Y & A & B & D & V & _)]].
  - rewrite HP, J, HK in X. unfold pressure in X. lra.
  - rewrite HP, J, HK in X. unfold pressure in X. simpl in X. lra.
  - exfalso. rewrite HP, J, HK in Y. unfold cc_yield, shear_stress in Y. rewrite J, R1 in Y. unfold pressure in Y. simpl (beta P) in Y. simpl (slope P) in Y. simpl (mu m) in Y.
    rewrite I2 in Y. replace (1 * 1 * spread 2 (fun i => S i * S i) * (1 * 1 * spread 2 (fun i => S i * S i))) with (spread 2 (fun i => S i * S i) * spread 2 (fun i => S i * S i)) in Y by ring.
    unfold spread in Y. rewrite sqrt_sqrt in Y by (apply vsum_nonneg; intros i _; exact (Rle_0_sqr _)).
    unfold mean, S in Y. simpl in Y. lra.
  - set (S' := fst (fst (cc_project P m 2 S 0))) in *.
    rewrite HP, HK in *. rewrite J, R1 in D. unfold cc_yield in D. simpl (beta P) in *. simpl (slope P) in *. simpl (mu m) in *.
    rewrite I2 in *. unfold pressure in D.
    replace (1 * 1 * spread 2 (fun i => S' i * S' i) * (1 * 1 * spread 2 (fun i => S' i * S' i))) with (spread 2 (fun i => S' i * S' i) * spread 2 (fun i => S' i * S' i)) in D by ring.
    unfold spread in D. rewrite sqrt_sqrt in D by (apply vsum_nonneg; intros i _; exact (Rle_0_sqr _)).
    unfold mean, S in D, V. rewrite I2 in D. simpl in D, V.
    set (a := S' 0%nat) in *. set (b := S' 1%nat) in *.
    assert (V' : a * a + b * b = 17/4) by lra.
    assert (Q : (a * a - b * b) * (a * a - b * b) <= 1 / 1000).
    { assert (E : (a * a - b * b) * (a * a - b * b) = 2 * ((0 + (a * a - (0 + a * a + b * b) / 2) * (a * a - (0 + a * a + b * b) / 2)) + (b * b - (0 + a * a + b * b) / 2) * (b * b - (0 + a * a + b * b) / 2))) by field.
      rewrite E. lra. }
    assert (JJ : 4 <= (a * a) * (b * b)) by nra.
    assert (PJ : vprod 2 S' * vprod 2 S' = (a * a) * (b * b)) by (simpl; fold a b; ring).
    set (p := pressure 1 (vprod 2 S')) in *.
    assert (p <= -3/2) by (unfold p, pressure; lra).
    assert (SS : 0 <= shear_stress m 2 S' * shear_stress m 2 S') by nra.
    assert (1 < (p + 1 * (1/100000)) * (p - 1 / 100000)) by nra.
    nra.
Qed.
Print Assumptions C82_cam_clay_admissible_refuted.
