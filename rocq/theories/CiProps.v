(* C81: invariants of the deformation gradient, the materials built on them, fibre
   energies and the matrices that map node positions to deformation gradients. *)
From Coq Require Import Reals Arith Lia Lra Psatz.
From Verif Require Import CmModel CmSpec CmProofs CmProofs2 CmProofs5 CiModel CiSpec CiProofs CiProofs2 CiProofs3 CiProofs4.
Local Open Scope R_scope.

(* ---- the invariants: value, gradient, Hessian ---- *)

(* I1: along every motion with a differentiable decomposition whose stretches sum
   pairwise to at least 1e-6, the value, the gradient and the Hessian returned by
   I_wrt_F<0, 2> are successive derivatives. *)
Theorem C81_I1_partial d (F U V : R -> mat) (S : R -> vec) t (G U' V' : mat) (S' : vec) :
  small_dim d -> (forall u, decomposes d (F u) (U u) (S u) (V u)) ->
  mat_rate d F t G -> mat_rate d U t U' -> vec_rate d S t S' -> mat_rate d V t V' ->
  rate (fun u => I1_value d (S u)) t (along d (I1_gradient d (U t) (V t)) G) /\
  ((forall i j, (i < d)%nat -> (j < d)%nat -> i <> j -> 1 / 1000000 <= S t i + S t j) ->
   forall n, (n < d * d)%nat ->
   rate (fun u => I1_gradient d (U u) (V u) n) t (along d (I1_hessian d (U t) (S t) (V t) n) G)).
Proof.
  intros Hd HD HF HU HS HV. split; [apply (I1_grad d F U V S t G U' V' S'); assumption|].
  intros HR n Hn. apply (I1_hess d F U V S t G U' V' S' n); assumption.
Qed.
Print Assumptions C81_I1_partial.

(* I2: the sum of the squares of the entries. *)
Theorem C81_I2 d F : gradient_at d (fun F => vsum d (fun i => vsum d (fun j => F i j * F i j))) F (I2_gradient d F) /\
  I2_value d F = vsum d (fun i => vsum d (fun j => F i j * F i j)) /\
  jacobian_at d (I2_gradient d) F I2_hessian.
Proof.
  split; [|split; [apply vsum_swap|apply I2_hess]].
  intros M t G E H. apply (rate_ext (fun u => I2_value d (M u))); [intros u; apply vsum_swap|].
  apply (I2_grad d F M t G E H).
Qed.
Print Assumptions C81_I2.

(* I3: the determinant. *)
Theorem C81_I3 d F : small_dim d ->
  I3_value d F = determinant d F /\
  gradient_at d (determinant d) F (I3_gradient d F) /\
  jacobian_at d (I3_gradient d) F (I3_hessian d F).
Proof.
  intros Hd. split; [apply I3_det, Hd|]. split; [|apply I3_hess, Hd].
  intros M t G E H. apply (rate_ext (fun u => I3_value d (M u))); [intros u; apply I3_det, Hd|].
  apply (I3_grad d F Hd M t G E H).
Qed.
Print Assumptions C81_I3.

(* I5: the squared length of the deformed fibre F a. *)
Theorem C81_I5 d a F : let length2 F := vsum d (fun i => Rsqr (vsum d (fun k => F i k * a k))) in
  I5_value d F a = length2 F /\
  gradient_at d length2 F (I5_gradient d F a) /\
  jacobian_at d (fun F => I5_gradient d F a) F (I5_hessian d a).
Proof. intros l. split; [reflexivity|]. split; [apply I5_grad|apply I5_hess]. Qed.
Print Assumptions C81_I5.

(* A motion that moves every entry. *)
Example C81_motion_example : let M := fun u (i j : nat) => INR (i + 2 * j) * u + delta i j in
  mat_rate 3 M 1 (fun i j => INR (i + 2 * j)) /\ determinant 3 (M 1) = -2.
Proof.
  intros M. split.
  - intros i j Hi Hj. eapply rate_eq; [apply rate_plus; [apply rate_mult; [apply rate_const|apply derivable_pt_lim_id]|apply rate_const]|].
    cbv beta. ring.
  - unfold determinant, M, delta; simpl. ring.
Qed.

(* ---- materials over the invariants ---- *)

(* For NeoHookeanInvariant (det F > 0) and StableNeohookeanInvarient (any F) the
   energy changes at the rate first_piola : dF/dt along every differentiable
   motion; nothing is asked of the decompositions handed to the code. *)
Theorem C81_stress m d (F : R -> mat) (S : R -> vec) t G U V : small_dim d -> mat_rate d F t G ->
  (0 < determinant d (F t) ->
   rate (fun u => inv_psi (neo_hookean_invariant m) d (F u) (S u)) t
     (contract d (inv_first_piola (neo_hookean_invariant m) d (F t) U (S t) V) G)) /\
  rate (fun u => inv_psi (stable_neo_hookean m) d (F u) (S u)) t
     (contract d (inv_first_piola (stable_neo_hookean m) d (F t) U (S t) V) G).
Proof.
  intros Hd HF. split.
  - intros HP. apply (inv_stress _ _ (nh_sound m)); [exact Hd|exact HF|]. rewrite I3_det by exact Hd. exact HP.
  - apply (inv_stress _ _ (snh_sound m)); [exact Hd|exact HF|exact I].
Qed.
Print Assumptions C81_stress.

(* ... and the stress at the rate first_piola_derivative . vec(dF/dt). *)
Theorem C81_stiffness m d (F U V : R -> mat) (S : R -> vec) t G i j : small_dim d -> mat_rate d F t G ->
  (i < d)%nat -> (j < d)%nat ->
  (0 < determinant d (F t) ->
   rate (fun u => inv_first_piola (neo_hookean_invariant m) d (F u) (U u) (S u) (V u) i j) t
     (along d (inv_first_piola_derivative (neo_hookean_invariant m) d (F t) (U t) (S t) (V t) (j * d + i)%nat) G)) /\
  rate (fun u => inv_first_piola (stable_neo_hookean m) d (F u) (U u) (S u) (V u) i j) t
    (along d (inv_first_piola_derivative (stable_neo_hookean m) d (F t) (U t) (S t) (V t) (j * d + i)%nat) G).
Proof.
  intros Hd HF Hi Hj. split.
  - intros HP. apply (inv_stiffness _ _ (nh_sound m)); [exact Hd|exact HF| |exact Hi|exact Hj]. rewrite I3_det by exact Hd. exact HP.
  - apply (inv_stiffness _ _ (snh_sound m)); [exact Hd|exact HF|exact I|exact Hi|exact Hj].
Qed.
Print Assumptions C81_stiffness.

(* The energies do not depend on the frame: turning the deformed body changes nothing. *)
Theorem C81_objective m d Q F S S' : small_dim d -> orthogonal d Q -> determinant d Q = 1 ->
  inv_psi (neo_hookean_invariant m) d (mat_mul d Q F) S' = inv_psi (neo_hookean_invariant m) d F S /\
  inv_psi (stable_neo_hookean m) d (mat_mul d Q F) S' = inv_psi (stable_neo_hookean m) d F S.
Proof.
  intros Hd O D. split; (apply objective; [|exact Hd|exact O|exact D]); intros Is Js E1 E2; simpl; rewrite E1, E2; reflexivity.
Qed.
Print Assumptions C81_objective.
Example C81_objective_example t : orthogonal 3 (turn t) /\ determinant 3 (turn t) = 1.
Proof.
  split; [apply turn_orthogonal|]. unfold determinant, turn; simpl.
  assert (A := sin2_cos2 t). unfold Rsqr in A. nra.
Qed.

(* The undeformed body is free of stress. *)
Theorem C81_rest m d S U V i j : small_dim d -> (i < d)%nat -> (j < d)%nat ->
  inv_first_piola (neo_hookean_invariant m) d delta U S V i j = 0 /\
  inv_first_piola (stable_neo_hookean m) d delta U S V i j = 0.
Proof.
  intros Hd Hi Hj. unfold inv_first_piola, unvectorize, I2_gradient. rewrite !vectorize_cm by exact Hi.
  three d Hd.
  - assert (i = 0)%nat by lia. assert (j = 0)%nat by lia. subst. unfold delta; simpl. unfold delta; simpl. rewrite ln_1. split; field.
  - destruct i as [|[|i]]; try lia; destruct j as [|[|j]]; try lia; simpl; unfold delta; simpl;
      replace (1 * 1 - 0 * 0) with 1 by ring; rewrite ln_1; split; field.
  - destruct i as [|[|[|i]]]; try lia; destruct j as [|[|[|j]]]; try lia; simpl; unfold delta, cross, col; simpl;
      replace (1 * (1 * 1 - 0 * 0) - 0 * (0 * 1 - 0 * 0) + 0 * (0 * 0 - 1 * 0)) with 1 by ring; rewrite ln_1; split; field.
Qed.
Print Assumptions C81_rest.

(* NeoHookeanInvariant and NeoHookean are the same material in three dimensions ... *)
Theorem C81_neo_hookean_agree_partial m F U S V :
  decomposes 3 F U S V -> determinant 3 U = 1 -> determinant 3 V = 1 ->
  inv_psi (neo_hookean_invariant m) 3 F S = psi (neo_hookean m) 3 S.
Proof.
  intros HD DU DV. rewrite (agree m 3 F U S V); [|right; right; reflexivity|assumption..].
  simpl. ring.
Qed.
Print Assumptions C81_neo_hookean_agree_partial.
(* ... but not in two: do_psi_I subtracts the number of invariants, three, instead of
   the dimension, so that the undeformed body has energy - mu / 2. *)
Theorem C81_neo_hookean_agree_refuted : ~ forall m d F U S V, small_dim d ->
  decomposes d F U S V -> determinant d U = 1 -> determinant d V = 1 ->
  inv_psi (neo_hookean_invariant m) d F S = psi (neo_hookean m) d S.
Proof.
  intros H.
  assert (O : orthogonal 2 delta).
  { split; intros i j Hi Hj; destruct i as [|[|i]]; try lia; destruct j as [|[|j]]; try lia; unfold delta; simpl; ring. }
  assert (Hd : small_dim 2) by (right; left; reflexivity).
  assert (D : decomposes 2 delta delta (fun _ => 1) delta).
  { split; [exact O|split; [exact O|]]. intros i j Hi Hj.
    destruct i as [|[|i]]; try lia; destruct j as [|[|j]]; try lia; unfold delta; simpl; ring. }
  assert (E1 : determinant 2 delta = 1) by (unfold determinant, delta; simpl; ring).
  specialize (H (Lame 1 0) 2%nat delta delta (fun _ => 1) delta Hd D E1 E1).
  rewrite (agree (Lame 1 0) 2 delta delta (fun _ => 1) delta Hd D E1 E1) in H. simpl in H. lra.
Qed.
Print Assumptions C81_neo_hookean_agree_refuted.

(* eval_stretching_matrix is the Hessian of the stable neo-Hookean energy in the
   principal stretches. *)
Theorem C81_stretching m s s' t i : vec_rate 3 s t s' -> (forall i, (i < 3)%nat -> s t i <> 0) -> (i < 3)%nat ->
  let energy (x : vec) := inv_psi (stable_neo_hookean m) 3 (fun i j => if Nat.eqb i j then x i else 0) x in
  let slope (x : vec) (i : nat) := mu m * x i + (lam m * (vprod 3 x - 1) - mu m) * (vprod 3 x / x i) in
  rate (fun u => energy (s u)) t (vsum 3 (fun i => slope (s t) i * s' i)) /\
  rate (fun u => slope (s u) i) t
    (vsum 3 (fun j => stretching_matrix m (fun _ => vprod 3 (s t)) (s t) i j * s' j)).
Proof. exact (stretching m s s' t i). Qed.
Print Assumptions C81_stretching.

(* ---- AnisotropicArap ---- *)

(* A fibre along x stretched to 2 + sin u; its polar factor is F itself. *)
Definition pull (u : R) : mat := fun i j =>
  match i, j with 0%nat, 0%nat => 2 + sin u | 1%nat, 1%nat => 1 | 2%nat, 2%nat => 1 | _, _ => 0 end.
Definition pull' : mat := fun i j => match i, j with 0%nat, 0%nat => 1 | _, _ => 0 end.
Definition fibre : vec := fun i => match i with O => 1 | _ => 0 end.
Lemma pull_rate : mat_rate 3 pull 0 pull'.
Proof.
  intros i j Hi Hj. destruct i as [|[|[|i]]]; try lia; destruct j as [|[|[|j]]]; try lia; simpl; try apply rate_const.
  eapply rate_eq; [apply rate_plus; [apply rate_const|apply derivable_pt_lim_sin]|]. rewrite cos_0. ring.
Qed.
Lemma pull_sign u tiny : tiny < 1 -> I4_sign tiny 3 (pull u) fibre = 1.
Proof.
  intros H. unfold I4_sign, mat_vec; simpl. assert (B := SIN_bound u).
  match goal with |- context [Rabs ?x] => replace x with (2 + sin u) by ring end.
  rewrite Rabs_right by lra. destruct (Rle_dec _ _); [lra|]. destruct (Rlt_dec _ _); [reflexivity|lra].
Qed.
Lemma pull_I5 u : I5_value 3 (pull u) fibre = (2 + sin u) * (2 + sin u).
Proof. unfold I5_value, mat_vec; simpl. ring. Qed.
Lemma pull_root u : sqrt (I5_value 3 (pull u) fibre) = 2 + sin u.
Proof. rewrite pull_I5. assert (B := SIN_bound u). apply sqrt_square. lra. Qed.

(* first_piola of AnisotropicArap is half the derivative of psi: along every motion
   with a stretched fibre and a constant sign of I4 the energy changes at twice the
   rate first_piola : dF/dt. *)
Theorem C81_arap_half mu_ tiny d (F Sp : R -> mat) a t G : mat_rate d F t G -> 0 < I5_value d (F t) a ->
  (forall u, I4_sign tiny d (Sp u) a = I4_sign tiny d (Sp t) a) ->
  rate (fun u => arap_psi mu_ tiny d (F u) (Sp u) a) t (2 * contract d (arap_first_piola mu_ tiny d (F t) (Sp t) a) G).
Proof. exact (arap_half mu_ tiny d F Sp a t G). Qed.
Print Assumptions C81_arap_half.
Example C81_arap_example : mat_rate 3 pull 0 pull' /\ 0 < I5_value 3 (pull 0) fibre /\
  forall u, I4_sign (1/1000) 3 (pull u) fibre = I4_sign (1/1000) 3 (pull 0) fibre.
Proof.
  split; [exact pull_rate|]. split; [rewrite pull_I5, sin_0; lra|]. intros u. rewrite !pull_sign by lra. reflexivity.
Qed.

Theorem C81_arap_stress_refuted : ~ forall mu_ tiny d (F Sp : R -> mat) a t G, 0 < mu_ -> 0 < tiny < 1 ->
  mat_rate d F t G -> 0 < I5_value d (F t) a ->
  (forall u, I4_sign tiny d (Sp u) a = I4_sign tiny d (Sp t) a) ->
  rate (fun u => arap_psi mu_ tiny d (F u) (Sp u) a) t (contract d (arap_first_piola mu_ tiny d (F t) (Sp t) a) G).
Proof.
  intros H.
  assert (P : 0 < I5_value 3 (pull 0) fibre) by (rewrite pull_I5, sin_0; lra).
  assert (C : forall u, I4_sign (1/1000) 3 (pull u) fibre = I4_sign (1/1000) 3 (pull 0) fibre)
    by (intros u; rewrite !pull_sign by lra; reflexivity).
  assert (A := H 1 (1/1000) 3%nat pull pull fibre 0 pull' ltac:(lra) ltac:(lra) pull_rate P C).
  assert (B := arap_half 1 (1/1000) 3 pull pull fibre 0 pull' pull_rate P C).
  assert (E := rate_unique _ _ _ _ A B). revert E. unfold contract, arap_first_piola.
  rewrite pull_root, pull_sign, sin_0 by lra. unfold mat_mul, dyadic, pull'; simpl. rewrite sin_0. lra.
Qed.
Print Assumptions C81_arap_stress_refuted.

(* first_piola_derivative of AnisotropicArap is the derivative neither of
   first_piola nor of the true stress (twice first_piola). *)
Theorem C81_arap_stiffness_refuted : forall c, c = 1 \/ c = 2 ->
  ~ forall mu_ tiny d (F Sp : R -> mat) a t G i j, 0 < mu_ -> 0 < tiny < 1 ->
  mat_rate d F t G -> 0 < I5_value d (F t) a ->
  (forall u, I4_sign tiny d (Sp u) a = I4_sign tiny d (Sp t) a) -> (i < d)%nat -> (j < d)%nat ->
  rate (fun u => c * arap_first_piola mu_ tiny d (F u) (Sp u) a i j) t
    (along d (arap_first_piola_derivative mu_ tiny d (F t) (Sp t) a (j * d + i)%nat) G).
Proof.
  intros c Hc H.
  assert (P : 0 < I5_value 3 (pull 0) fibre) by (rewrite pull_I5, sin_0; lra).
  assert (C : forall u, I4_sign (1/1000) 3 (pull u) fibre = I4_sign (1/1000) 3 (pull 0) fibre)
    by (intros u; rewrite !pull_sign by lra; reflexivity).
  assert (A := H 1 (1/1000) 3%nat pull pull fibre 0 pull' 0%nat 0%nat ltac:(lra) ltac:(lra) pull_rate P C ltac:(lia) ltac:(lia)).
  assert (B : rate (fun u => c * arap_first_piola 1 (1/1000) 3 (pull u) (pull u) fibre 0%nat 0%nat) 0 (c * (1/2))).
  { apply rate_scal. apply (rate_ext (fun u => 1/2 * (1 + sin u))).
    - intros u. unfold arap_first_piola. rewrite pull_root, pull_sign by lra. unfold mat_mul, dyadic; simpl.
      assert (Q := SIN_bound u). field. lra.
    - eapply rate_eq; [apply rate_scal; apply rate_plus; [apply rate_const|apply derivable_pt_lim_sin]|]. rewrite cos_0. field. }
  assert (E := rate_unique _ _ _ _ A B). revert E. unfold along, arap_first_piola_derivative.
  rewrite pull_root, pull_sign, pull_I5, sin_0 by lra. cbv zeta.
  destruct (Rlt_dec _ _); [lra|]. destruct (Rlt_dec _ _); [lra|].
  unfold I5_hessian, I5_gradient, vectorize, mat_mul, dyadic, pull'; simpl. rewrite sin_0. intros E. lra.
Qed.
Print Assumptions C81_arap_stiffness_refuted.

(* ---- node positions to deformation gradients ---- *)

(* dFdXMatrix maps the positions of the nodes to the deformation gradient: applied
   to the concatenated positions x_0, ..., x_bdim it yields the column-major entries
   of Ds DmInv, where column k of Ds is x_{k+1} - x_0.  Any dimensions. *)
Theorem C81_dFdX dim bdim DmInv (x : mat) i j : (i < dim)%nat ->
  vsum ((bdim + 1) * dim) (fun c => dFdXMatrix dim bdim DmInv (j * dim + i)%nat c * x (Nat.div c dim) (Nat.modulo c dim))
  = vsum bdim (fun k => (x (k + 1)%nat i - x 0%nat i) * DmInv k j).
Proof. exact (dFdX dim bdim DmInv x i j). Qed.
Print Assumptions C81_dFdX.
Example C81_dFdX_example : dFdXMatrix 3 2 (fun i j => INR (1 + i + 2 * j)) 4%nat 1%nat = - (3 + 4) /\
  dFdXMatrix 3 2 (fun i j => INR (1 + i + 2 * j)) 4%nat 7%nat = 4 /\ dFdXMatrix 3 2 (fun i j => INR (1 + i + 2 * j)) 4%nat 8%nat = 0.
Proof. unfold dFdXMatrix, negative_col_sum; simpl. repeat split; ring. Qed.

(* dFAdF maps vec(F) to vec(F A): 3 x 3 F and A (n = 3), 3 x 2 F and 2 x 2 A (n = 2). *)
Theorem C81_dFAdF n A (F : mat) i j : (i < 3)%nat ->
  vsum (n * 3) (fun c => dFAdF A (j * 3 + i)%nat c * F (Nat.modulo c 3) (Nat.div c 3))
  = vsum n (fun k => F i k * A k j).
Proof. exact (dFA n A F i j). Qed.
Print Assumptions C81_dFAdF.

(* ---- NACCConfig::mohrColumbFriction ---- *)

(* The friction coefficient should be sqrt(2/3) 2 sin(phi) / (3 - sin(phi)) for the
   friction angle fa, stored in degrees (its default is 45, for which a comment gives
   the value 0.5036); the code takes the sine of the number of degrees. *)
Theorem C81_friction_angle_refuted : ~ forall fa, 0 < fa < 90 ->
  let sin_phi := sin (fa * (PI / 180)) in
  mohr_columb_friction fa = sqrt (2 / 3) * 2 * sin_phi / (3 - sin_phi).
Proof.
  intros H. specialize (H 1 ltac:(lra)). cbv zeta in H. unfold mohr_columb_friction in H.
  rewrite Rmult_1_l in H. assert (A := sin_degree). assert (B := sin_one).
  assert (B1 := SIN_bound 1). assert (A1 := SIN_bound (PI / 180)).
  set (p := sin 1) in *. set (q := sin (PI / 180)) in *.
  assert (Q : 0 < sqrt (2 / 3)) by (apply sqrt_lt_R0; lra).
  assert (E : p * (3 - q) = q * (3 - p)).
  { apply (Rmult_eq_reg_l (sqrt (2/3) * 2)); [|lra].
    assert (E2 := f_equal (fun z => z * ((3 - p) * (3 - q))) H). cbv beta in E2.
    replace (sqrt (2 / 3) * 2 * p / (3 - p) * ((3 - p) * (3 - q))) with (sqrt (2 / 3) * 2 * (p * (3 - q))) in E2 by (field; lra).
    replace (sqrt (2 / 3) * 2 * q / (3 - q) * ((3 - p) * (3 - q))) with (sqrt (2 / 3) * 2 * (q * (3 - p))) in E2 by (field; lra).
    exact E2. }
  lra.
Qed.
Print Assumptions C81_friction_angle_refuted.
