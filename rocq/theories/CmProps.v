(* C80: stresses and stiffnesses of the isotropic elasticity models. *)
From Coq Require Import Reals Arith Lia Lra List.
From Verif Require Import CmModel CmSpec CmProofs CmProofs2 CmProofs3 CmProofs4 CmProofs5.
Local Open Scope R_scope.

(* Along every differentiable motion of the stretches, in 1, 2 or 3 dimensions, the
   energy changes at the rate dpsi_dsigma . S'. *)
Theorem C80_gradient k m d S S' t : small_dim d -> vec_rate d S t S' -> domain k d (S t) ->
  rate (fun u => psi_sigma (model k m) d (S u)) t
    (vsum d (fun i => dpsi_dsigma (model k m) d (S t) i * S' i)).
Proof. exact (gradient k m d S S' t). Qed.
Print Assumptions C80_gradient.

(* ... and dpsi_dsigma changes at the rate d2psi_dsigma2 . S', except for the
   one-dimensional fixed corotated material. *)
Theorem C80_hessian_partial k m d S S' t i : small_dim d -> (d = 1%nat -> k <> FixedCorotated) ->
  vec_rate d S t S' -> domain k d (S t) -> (i < d)%nat ->
  rate (fun u => dpsi_dsigma (model k m) d (S u) i) t
    (vsum d (fun j => d2psi_dsigma2 (model k m) d (S t) i j * S' j)).
Proof.
  intros Hd N H D Hi. apply hessian; try assumption. destruct Hd as [E|[E|E]]; auto.
Qed.
Print Assumptions C80_hessian_partial.

(* FixedCorotated::do_d2psi_dsigma2 returns 1 in one dimension. *)
Theorem C80_hessian_1d_refuted : ~ forall m S S' t i,
  vec_rate 1 S t S' -> (i < 1)%nat ->
  rate (fun u => dpsi_dsigma (fixed_corotated m) 1 (S u) i) t
    (vsum 1 (fun j => d2psi_dsigma2 (fixed_corotated m) 1 (S t) i j * S' j)).
Proof.
  intros H.
  assert (A := H (Lame 1 0) (fun u _ => u) (fun _ => 1) 0 0%nat
     (fun i _ => derivable_pt_lim_id 0) ltac:(lia)).
  assert (B : rate (fun u => dpsi_dsigma (fixed_corotated (Lame 1 0)) 1 (fun _ => u) 0%nat) 0 2).
  { simpl. unfold fc_dpsi. simpl.
    eapply rate_ext; [intros u; instantiate (1 := fun u => 2 * (u - 1)); simpl; ring|].
    eapply rate_eq; [apply (rate_scal 2 (fun u => u - 1) 0 (1 - 0)); apply (rate_minus (fun u => u) (fun _ => 1)); [apply derivable_pt_lim_id|apply rate_const]|ring]. }
  assert (E := rate_unique _ _ _ _ A B). simpl in E. lra.
Qed.
Print Assumptions C80_hessian_1d_refuted.

(* The stress is the derivative of the energy: along every motion F(t) whose
   decomposition U(t) diag(S(t)) V(t)^T is differentiable, the energy changes at the
   rate first_piola : dF/dt. *)
Theorem C80_stress k m d (F U V : R -> mat) (S : R -> vec) t (G U' V' : mat) (S' : vec) : small_dim d ->
  (forall u, decomposes d (F u) (U u) (S u) (V u)) ->
  mat_rate d F t G -> mat_rate d U t U' -> vec_rate d S t S' -> mat_rate d V t V' ->
  domain k d (S t) ->
  rate (fun u => psi (model k m) d (S u)) t (contract d (first_piola (model k m) d (U t) (S t) (V t)) G).
Proof. exact (stress k m d F U V S t G U' V' S'). Qed.
Print Assumptions C80_stress.

(* The stiffness is the derivative of the stress: along every such motion, in 2 or 3
   dimensions, entry (i, j) of the stress changes at the rate given by row
   j * d + i of first_piola_derivative applied to dF/dt (entry (r, s) at column
   s * d + r), provided the stretches are resolved. *)
Theorem C80_stiffness_partial k m d (F U V : R -> mat) (S : R -> vec) t (G U' V' : mat) (S' : vec) i j :
  (d = 2 \/ d = 3)%nat ->
  (forall u, decomposes d (F u) (U u) (S u) (V u)) ->
  mat_rate d F t G -> mat_rate d U t U' -> vec_rate d S t S' -> mat_rate d V t V' ->
  domain k d (S t) -> resolved k d (S t) -> (i < d)%nat -> (j < d)%nat ->
  rate (fun u => first_piola (model k m) d (U u) (S u) (V u) i j) t
    (vsum d (fun r => vsum d (fun s =>
       first_piola_derivative keep (model k m) d (U t) (S t) (V t) (j * d + i)%nat (s * d + r)%nat * G r s))).
Proof. exact (stiffness k m d F U V S t G U' V' S' i j). Qed.
Print Assumptions C80_stiffness_partial.

(* A motion meeting these hypotheses for all materials: a spinning stretched block. *)
Example C80_stiffness_example : let S := fun (u : R) (i : nat) => match i with 0%nat => 3 + u | 1%nat => 2 | _ => 2 end in
  let F := fun u => compose 3 (turn u) (S u) delta in
  (forall u, decomposes 3 (F u) (turn u) (S u) delta) /\
  (exists G, mat_rate 3 F 0 G /\ G 0%nat 0%nat = 1 /\ G 2%nat 1%nat = 2) /\
  mat_rate 3 turn 0 turn' /\ vec_rate 3 S 0 (fun i => match i with O => 1 | _ => 0 end) /\
  mat_rate 3 (fun _ => delta) 0 (fun _ _ => 0) /\
  forall k, domain k 3 (S 0) /\ resolved k 3 (S 0).
Proof.
  intros S F.
  assert (HS : vec_rate 3 S 0 (fun i => match i with O => 1 | _ => 0 end)).
  { intros i Hi. destruct i as [|[|[|i]]]; try lia; simpl; try apply rate_const.
    eapply rate_eq; [apply (rate_plus (fun _ => 3) (fun u => u)); [apply rate_const|apply derivable_pt_lim_id]|ring]. }
  assert (HV : mat_rate 3 (fun _ => delta) 0 (fun _ _ => 0)) by (intros i j _ _; apply rate_const).
  split; [|split; [|split; [exact turn_rate|split; [exact HS|split; [exact HV|]]]]].
  - intros u. split; [apply turn_orthogonal|split; [|intros; reflexivity]].
    split; intros i j Hi Hj; destruct i as [|[|[|i]]]; try lia; destruct j as [|[|[|j]]]; try lia; unfold delta; simpl; ring.
  - exists (dcompose 3 (turn 0) turn' (S 0) (fun i => match i with O => 1 | _ => 0 end) delta (fun _ _ => 0)).
    split; [apply rate_compose; [exact turn_rate|exact HS|exact HV]|].
    unfold dcompose, delta; simpl. rewrite cos_0, sin_0. split; ring.
  - intros k. split.
    + destruct k; simpl; [exact I| |lra]. intros i Hi. destruct i as [|[|[|i]]]; try lia; simpl; lra.
    + split.
      * intros i j Hi Hj N. destruct i as [|[|[|i]]]; try lia; destruct j as [|[|[|j]]]; try lia; simpl; lra.
      * destruct k; simpl; try exact I. split.
        -- intros i Hi. destruct i as [|[|[|i]]]; try lia; simpl; lra.
        -- intros i j Hi Hj. destruct i as [|[|[|i]]]; try lia; destruct j as [|[|[|j]]]; try lia; simpl.
           ++ split; [lra|right]. rewrite Rabs_right; lra.
           ++ split; [lra|right]. rewrite Rabs_right; lra.
           ++ split; [lra|left; reflexivity].
Qed.

(* Without the positivity of the stretches the Hencky stiffness is wrong: for an
   inverted element (negative smallest stretch, as math::svd delivers it for
   det F < 0) the code's coefficient has the wrong sign. *)
Theorem C80_hencky_inverted_refuted : ~ forall m (F U V : R -> mat) (S : R -> vec) t (G U' V' : mat) (S' : vec) i j,
  (forall u, decomposes 3 (F u) (U u) (S u) (V u)) ->
  mat_rate 3 F t G -> mat_rate 3 U t U' -> vec_rate 3 S t S' -> mat_rate 3 V t V' ->
  domain StvkHencky 3 (S t) ->
  (forall i j, (i < 3)%nat -> (j < 3)%nat -> i <> j -> 1 <= S t i + S t j) ->
  (i < 3)%nat -> (j < 3)%nat ->
  rate (fun u => first_piola (stvk_hencky m) 3 (U u) (S u) (V u) i j) t
    (vsum 3 (fun r => vsum 3 (fun s =>
       first_piola_derivative keep (stvk_hencky m) 3 (U t) (S t) (V t) (j * 3 + i)%nat (s * 3 + r)%nat * G r s))).
Proof.
  intros H. set (m := Lame 1 0).
  assert (HS : vec_rate 3 (fun _ => S_inv) 0 (fun _ => 0)) by (intros i _; apply rate_const).
  assert (HV : mat_rate 3 (fun _ => delta) 0 (fun _ _ => 0)) by (intros i j _ _; apply rate_const).
  assert (HF : forall u, decomposes 3 (compose 3 (turn u) S_inv delta) (turn u) S_inv delta).
  { intros u. split; [apply turn_orthogonal|split; [|intros; reflexivity]].
    split; intros i j Hi Hj; destruct i as [|[|[|i]]]; try lia; destruct j as [|[|[|j]]]; try lia; unfold delta; simpl; ring. }
  set (G := dcompose 3 (turn 0) turn' S_inv (fun _ => 0) delta (fun _ _ => 0)).
  assert (HG : mat_rate 3 (fun u => compose 3 (turn u) S_inv delta) 0 G).
  { apply (rate_compose 3 turn turn' (fun _ => S_inv) (fun _ => 0) (fun _ => delta) (fun _ _ => 0) 0);
      [exact turn_rate|exact HS|exact HV]. }
  assert (A := H m (fun u => compose 3 (turn u) S_inv delta) turn (fun _ => delta) (fun _ => S_inv) 0 G turn' (fun _ _ => 0) (fun _ => 0)
     2%nat 1%nat HF HG turn_rate HS HV).
  assert (D : domain StvkHencky 3 S_inv).
  { intros i Hi. destruct i as [|[|[|i]]]; try lia; simpl; lra. }
  assert (D2 : forall i j, (i < 3)%nat -> (j < 3)%nat -> i <> j -> 1 <= S_inv i + S_inv j).
  { intros i j Hi Hj N. destruct i as [|[|[|i]]]; try lia; destruct j as [|[|[|j]]]; try lia; simpl; lra. }
  specialize (A D D2 ltac:(lia) ltac:(lia)).
  assert (B := rate_compose 3 turn turn' (fun _ => hk_dpsi m 3 S_inv) (fun _ => 0) (fun _ => delta) (fun _ _ => 0) 0
     turn_rate (fun i _ => rate_const _ 0) HV 2%nat 1%nat ltac:(lia) ltac:(lia)).
  assert (E := rate_unique _ _ _ _ A B). clear A B H.
  assert (LN : 0 < ln 2) by (rewrite <- ln_1; apply ln_increasing; lra).
  assert (Z1 : Rabs (-1) = 1) by (rewrite Rabs_left; lra).
  assert (E2 : dcompose 3 (turn 0) turn' (hk_dpsi m 3 S_inv) (fun _ => 0) delta (fun _ _ => 0) 2%nat 1%nat = ln 2).
  { unfold dcompose, delta, hk_dpsi, s_log. simpl. rewrite (Rabs_right 2), (Rabs_right 4), Z1, ln_1 by lra. field. }
  cbv beta in E. rewrite E2 in E. clear E2.
  rewrite (vsum_ext 3 _ (fun r => vsum 3 (fun s => entry3 (hk_d2psi m 3 S_inv) (compute_Bij (stvk_hencky m) 3 S_inv 0)
    (compute_Bij (stvk_hencky m) 3 S_inv 1) (compute_Bij (stvk_hencky m) 3 S_inv 2) (turn 0) delta 2 1 r s * G r s))) in E.
  2:{ intros r Hr. apply vsum_ext. intros s Hs. f_equal. apply (fpd3 keep); try lia; [apply (d2_sym StvkHencky m)|intros; apply Bij_sym]. }
  assert (TI : forall i j, (i < 3)%nat -> (j < 3)%nat -> turn 0 i j = delta i j).
  { intros i j Hi Hj. unfold turn, delta. rewrite cos_0, sin_0.
    destruct i as [|[|[|i]]]; try lia; destruct j as [|[|[|j]]]; try lia; simpl; ring. }
  assert (EG : forall r s, G r s = match r, s with 1%nat, 2%nat => 1 | 2%nat, 1%nat => 2 | _, _ => G r s end).
  { intros r s. destruct r as [|[|[|r]]]; try reflexivity; destruct s as [|[|[|s]]]; try reflexivity; unfold G, dcompose, delta; simpl; ring. }
  assert (EB : vsum 3 (fun r => vsum 3 (fun s => entry3 (hk_d2psi m 3 S_inv) (compute_Bij (stvk_hencky m) 3 S_inv 0)
    (compute_Bij (stvk_hencky m) 3 S_inv 1) (compute_Bij (stvk_hencky m) 3 S_inv 2) (turn 0) delta 2 1 r s * G r s))
    = compute_Bij (stvk_hencky m) 3 S_inv 1 1%nat 0%nat * 1 + compute_Bij (stvk_hencky m) 3 S_inv 1 1%nat 1%nat * 2).
  { unfold entry3, vsum. rewrite !TI by lia. rewrite (EG 1%nat 2%nat), (EG 2%nat 1%nat). unfold delta. cbn [Nat.eqb]. ring. }
  rewrite EB in E. clear EB.
  unfold compute_Bij in E. cbn [Nat.eqb Nat.add Nat.modulo Nat.divmod fst snd Nat.sub stvk_hencky dpsi_dsigma Bij_neg_coeff hk_bneg] in E.
  unfold hk_bneg3, diff_interlock_log_over_diff, diff_log_over_diff, log_1px_over_x, hk_dpsi, s_log, log1p in E.
  simpl in E. rewrite Z1 in E.
  destruct (Rlt_dec (Rabs (2 / 1 - 1)) hk_eps) as [C|_].
  { rewrite Rabs_right in C by lra. unfold hk_eps in C. lra. }
  rewrite (Rabs_right 2), (Rabs_right 4), ln_1 in E by lra.
  rewrite Rmax_left in E by lra.
  replace (1 + (2 / 1 - 1)) with 2 in E by field.
  field_simplify in E. lra.
Qed.
Print Assumptions C80_hencky_inverted_refuted.

(* At coincident positive stretches the left coefficient is the limit of the
   quotient, half the difference of the second derivatives. *)
Theorem C80_coincident k m d n S : pairs d n -> (forall i, (i < d)%nat -> 0 < S i) ->
  let (i, j) := pair_of n in S i = S j ->
  Bij_neg_coeff (model k m) d S n
  = 1 / 2 * (d2psi_dsigma2 (model k m) d S i i - d2psi_dsigma2 (model k m) d S i j).
Proof. exact (coincident k m d n S). Qed.
Print Assumptions C80_coincident.
Example C80_coincident_example : pairs 3 1 /\ (forall i, (i < 3)%nat -> 0 < (fun i => match i with O => 3 | _ => 2 end) i).
Proof. split; [right; split; [reflexivity|lia]|]. intros [|i] _; simpl; lra. Qed.

(* Between them the Hencky coefficient is within 3e-6 mu / (S_i S_j) of the quotient. *)
Theorem C80_hencky_coefficient m d n S : pairs d n -> 0 <= mu m -> (forall i, (i < d)%nat -> 0 < S i) ->
  let (i, j) := pair_of n in 1 / 1000000 <= S i / S j -> S i <> S j ->
  Rabs (Bij_neg_coeff (stvk_hencky m) d S n
        - (dpsi_dsigma (stvk_hencky m) d S i - dpsi_dsigma (stvk_hencky m) d S j) / (2 * (S i - S j)))
  <= 3 / 1000000 * mu m / (S i * S j).
Proof.
  intros Hp Hm Hpos. assert (B := band m d n S Hp Hm Hpos). destruct (pair_of n) as [i j].
  intros H1 H2. specialize (B H1 H2). unfold hk_eps in B. simpl.
  replace (3 / 1000000) with (3 * (1 / 1000000)) by field. exact B.
Qed.
Print Assumptions C80_hencky_coefficient.

(* first_piola_derivative is a symmetric matrix; it is positive semi-definite when
   make_pd (C69) makes the blocks it is applied to symmetric and positive
   semi-definite, whatever U and V are. *)
Theorem C80_symmetric pd M d U S V : symmetric (d * d) (first_piola_derivative pd M d U S V).
Proof. exact (fpd_sym pd M d U S V). Qed.
Print Assumptions C80_symmetric.
Theorem C80_project_spd pd k m d U S V : (d = 2 \/ d = 3)%nat ->
  (forall n A, symmetric n A -> symmetric n (pd n A) /\ psd n (pd n A)) ->
  psd (d * d) (first_piola_derivative pd (model k m) d U S V).
Proof.
  intros Hd H. apply fpd_psd; [exact Hd| | |].
  - apply H. apply d2_sym.
  - apply H. apply d2_sym.
  - intros n Hn. apply H. apply Bij_sym.
Qed.
Print Assumptions C80_project_spd.
Example C80_project_spd_example : forall n A, symmetric n A ->
  symmetric n ((fun _ _ => delta) n A : mat) /\ psd n ((fun _ _ => delta) n A : mat).
Proof.
  intros n A _. split.
  - intros i j _ _. unfold delta. rewrite Nat.eqb_sym. reflexivity.
  - intros x. rewrite (vsum_ext n _ (fun i => x i * x i)).
    + induction n as [|n IH]; simpl; [lra|]. nra.
    + intros i Hi. rewrite <- (vsum_delta n i (fun j => x i * x j)) by exact Hi. apply vsum_ext. intros; ring.
Qed.

(* The conversions between (E, nu) and the Lame parameters invert each other. *)
Theorem C80_lame E nu : E <> 0 -> nu <> -1 -> nu <> 1/2 ->
  E_nu_from_lame_parameters (mu (lame_parameters E nu)) (lam (lame_parameters E nu)) = (E, nu).
Proof.
  intros HE H1 H2. unfold E_nu_from_lame_parameters, lame_parameters. simpl.
  assert (N1 : 1 + nu <> 0) by lra. assert (N2 : 1 - 2 * nu <> 0) by lra.
  assert (Q : E * nu / ((1 + nu) * (1 - 2 * nu)) + 1 / 2 * E / (1 + nu) = E / (2 * ((1 + nu) * (1 - 2 * nu)))) by (field; auto).
  rewrite Q. f_equal; field; repeat split; auto; lra.
Qed.
Print Assumptions C80_lame.
Theorem C80_lame_inverse m l : m <> 0 -> l + m <> 0 -> 3 * l + 2 * m <> 0 ->
  let (E, nu) := E_nu_from_lame_parameters m l in lame_parameters E nu = Lame m l.
Proof.
  intros H1 H2 H3. unfold E_nu_from_lame_parameters, lame_parameters.
  f_equal; field; repeat split; auto; lra.
Qed.
Print Assumptions C80_lame_inverse.
Example C80_lame_example : lame_parameters 10 (1/4) = Lame 4 4 /\ (10 : R) <> 0 /\ (1/4 : R) <> -1 /\ (1/4 : R) <> 1/2.
Proof. unfold lame_parameters. repeat split; try lra. f_equal; field. Qed.

(* EquationOfState: the stress is the derivative of the energy and its derivative
   is the derivative of the stress. *)
Theorem C80_equation_of_state e J : J <> 0 ->
  rate (eos_psi e) J (eos_first_piola e J) /\ rate (eos_first_piola e) J (eos_first_piola_derivative e J).
Proof.
  intros N.
  assert (P : forall n, rate (fun x => x ^ n) J (INR n * J ^ pred n)) by (intros n; apply derivable_pt_lim_pow).
  split.
  - eapply rate_ext; [intros x; instantiate (1 := fun x => bulk e * ((1/6) / x ^ 6 + x)); unfold eos_psi; simpl|].
    + f_equal. f_equal. f_equal. ring.
    + eapply rate_eq.
      * apply rate_scal. apply rate_plus; [|apply derivable_pt_lim_id].
        apply (rate_div (fun _ => 1/6) (fun x => x ^ 6)); [apply pow_nonzero; exact N|apply rate_const|apply P].
      * unfold eos_first_piola. simpl. field. exact N.
  - eapply rate_ext; [intros x; instantiate (1 := fun x => bulk e - bulk e / x ^ 7); unfold eos_first_piola; simpl|].
    + f_equal. f_equal. ring.
    + eapply rate_eq.
      * apply rate_minus; [apply rate_const|].
        apply (rate_div (fun _ => bulk e) (fun x => x ^ 7)); [apply pow_nonzero; exact N|apply rate_const|apply P].
      * unfold eos_first_piola_derivative. simpl. field. exact N.
Qed.
Print Assumptions C80_equation_of_state.
(* Its constructor drops the exponent it is given. *)
Theorem C80_gamma_refuted : ~ forall E nu g, gamma (make_eos E nu g) = g.
Proof. intros H. specialize (H 1 0 0). simpl in H. lra. Qed.
Print Assumptions C80_gamma_refuted.
