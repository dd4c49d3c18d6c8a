(* The materials over the invariants, fibres, shape functions. *)
From Coq Require Import Reals Arith Lia Lra Psatz.
From Verif Require Import CmModel CmSpec CmProofs CmProofs2 CiModel CiSpec CiProofs CiProofs2.
Local Open Scope R_scope.

(* What a material over I2 and I3 has to satisfy. *)
Definition sound (M : inv) (ok : R -> Prop) : Prop :=
  (forall Is, dpsi_dI M 0 Is = 0) /\ (forall Is, d2psi_dI2 M 0 Is = 0) /\ (forall Is, d2psi_dI2 M 1 Is = 0) /\
  (forall Is Js, dpsi_dI M 1 Is = dpsi_dI M 1 Js) /\
  (forall (p : R -> vec) t a b, rate (fun u => p u 1%nat) t a -> rate (fun u => p u 2%nat) t b -> ok (p t 2%nat) ->
     rate (fun u => psi_I M (p u)) t (dpsi_dI M 1 (p t) * a + dpsi_dI M 2 (p t) * b) /\
     rate (fun u => dpsi_dI M 2 (p u)) t (d2psi_dI2 M 2 (p t) * b)).
Lemma nh_sound m : sound (neo_hookean_invariant m) (fun J => 0 < J).
Proof.
  repeat split; simpl.
  - eapply rate_eq.
    + apply rate_minus.
      * apply rate_mult; [apply rate_const|apply rate_minus; [exact H|apply rate_const]].
      * apply rate_mult; [|apply (rate_ln (fun u => p u 2%nat)); [exact H1|exact H0]].
        apply rate_minus; [apply rate_const|]. apply rate_mult; [apply rate_const|].
        apply (rate_ln (fun u => p u 2%nat)); [exact H1|exact H0].
    + cbv beta. field. lra.
  - eapply rate_eq.
    + apply (rate_div (fun u => lam m * ln (p u 2%nat) - mu m) (fun u => p u 2%nat)); [lra| |exact H0].
      apply rate_minus; [|apply rate_const]. apply rate_mult; [apply rate_const|].
      apply (rate_ln (fun u => p u 2%nat)); [exact H1|exact H0].
    + cbv beta. field. lra.
Qed.
Lemma snh_sound m : sound (stable_neo_hookean m) (fun _ => True).
Proof.
  repeat split; simpl.
  - eapply rate_eq.
    + apply rate_plus; [apply rate_minus|].
      * apply rate_mult; [apply rate_const|apply rate_minus; [exact H|apply rate_const]].
      * apply rate_mult; [apply rate_const|apply rate_minus; [exact H0|apply rate_const]].
      * apply rate_mult; [apply rate_mult; [apply rate_const|]|]; (apply rate_minus; [exact H0|apply rate_const]).
    + cbv beta. field.
  - eapply rate_eq.
    + apply rate_plus; [apply rate_const|]. apply rate_mult; [apply rate_const|]. apply rate_minus; [exact H0|apply rate_const].
    + cbv beta. ring.
Qed.
Section MATERIAL.
Context (M : inv) (ok : R -> Prop) (HM : sound M ok).
Lemma piola_along d F U S V G : along d (vectorize d (inv_first_piola M d F U S V)) G
  = dpsi_dI M 1 (invariants d F S) * along d (I2_gradient d F) G + dpsi_dI M 2 (invariants d F S) * along d (I3_gradient d F) G.
Proof.
  rewrite <- !along_scal, <- along_plus. destruct HM as (Z & _).
  unfold along. apply vsum_ext; intros i Hi. apply vsum_ext; intros j Hj.
  rewrite vectorize_cm by exact Hi. unfold inv_first_piola, unvectorize. rewrite Z. ring.
Qed.
Lemma inv_stress d (F : R -> mat) (S : R -> vec) t G U V : small_dim d -> mat_rate d F t G -> ok (I3_value d (F t)) ->
  rate (fun u => inv_psi M d (F u) (S u)) t (contract d (inv_first_piola M d (F t) U (S t) V) G).
Proof.
  intros Hd HF Ho. rewrite <- along_vectorize, piola_along.
  destruct HM as (_ & _ & _ & _ & H).
  apply (H (fun u => invariants d (F u) (S u)) t).
  - apply (I2_grad d (F t) F t G); [reflexivity|exact HF].
  - apply (I3_grad d (F t) Hd F t G); [reflexivity|exact HF].
  - exact Ho.
Qed.
Lemma inv_stiffness d (F U V : R -> mat) (S : R -> vec) t G i j : small_dim d -> mat_rate d F t G -> ok (I3_value d (F t)) ->
  (i < d)%nat -> (j < d)%nat ->
  rate (fun u => inv_first_piola M d (F u) (U u) (S u) (V u) i j) t
    (along d (inv_first_piola_derivative M d (F t) (U t) (S t) (V t) (j * d + i)%nat) G).
Proof.
  intros Hd HF Ho Hi Hj.
  destruct HM as (Z & Z0 & Z1 & C & H).
  assert (R2 := I2_grad d (F t) F t G (fun _ _ _ _ => eq_refl) HF).
  assert (R3 := I3_grad d (F t) Hd F t G (fun _ _ _ _ => eq_refl) HF).
  destruct (H (fun u => invariants d (F u) (S u)) t _ _ R2 R3 Ho) as [_ RD].
  assert (Hn : (j * d + i < d * d)%nat) by nia.
  assert (H2 := I2_hess d (F t) F t G _ (fun _ _ _ _ => eq_refl) HF Hn).
  assert (H3 := I3_hess d (F t) Hd F t G _ (fun _ _ _ _ => eq_refl) HF Hn).
  set (n := (j * d + i)%nat) in *. set (Is := invariants d (F t) (S t)) in *.
  apply (rate_ext (fun u => dpsi_dI M 1 Is * I2_gradient d (F u) n + dpsi_dI M 2 (invariants d (F u) (S u)) * I3_gradient d (F u) n)).
  { intros u. unfold inv_first_piola, unvectorize. rewrite Z. fold n. rewrite (C (invariants d (F u) (S u)) Is). ring. }
  eapply rate_eq.
  - apply rate_plus; [apply rate_mult; [apply rate_const|exact H2]|]. apply rate_mult; [exact RD|exact H3].
  - cbv beta. fold Is. unfold inv_first_piola_derivative. fold Is.
    symmetry. rewrite (along_ext d _ (fun c => dpsi_dI M 1 Is * I2_hessian n c + (d2psi_dI2 M 2 Is * I3_gradient d (F t) n * I3_gradient d (F t) c + dpsi_dI M 2 Is * I3_hessian d (F t) n c))).
    2:{ intros c _. cbv beta zeta. fold Is. rewrite Z0, Z1, Z. unfold dyadic. fold Is. ring. }
    rewrite !along_plus, !along_scal. change (fun c => I2_hessian n c) with (I2_hessian n). ring.
Qed.
End MATERIAL.

(* ---- stretching matrix ---- *)
Lemma stretching m s s' t i : vec_rate 3 s t s' -> (forall i, (i < 3)%nat -> s t i <> 0) -> (i < 3)%nat ->
  let energy (x : vec) := inv_psi (stable_neo_hookean m) 3 (fun i j => if Nat.eqb i j then x i else 0) x in
  let slope (x : vec) (i : nat) := mu m * x i + (lam m * (vprod 3 x - 1) - mu m) * (vprod 3 x / x i) in
  rate (fun u => energy (s u)) t (vsum 3 (fun i => slope (s t) i * s' i)) /\
  rate (fun u => slope (s u) i) t
    (vsum 3 (fun j => stretching_matrix m (fun _ => vprod 3 (s t)) (s t) i j * s' j)).
Proof.
  intros H N Hi energy slope.
  assert (N0 := N 0%nat ltac:(lia)). assert (N1 := N 1%nat ltac:(lia)). assert (N2 := N 2%nat ltac:(lia)).
  split.
  - unfold energy, inv_psi, stable_neo_hookean, invariants, I2_value, I3_value; simpl.
    eapply rate_eq; [poly H|]. cbv beta. unfold slope; simpl. field. auto.
  - unfold slope; simpl.
    destruct i as [|[|[|i]]]; try lia.
    all: (eapply rate_eq; [apply rate_plus; [poly H|apply rate_mult; [poly H|]];
      apply rate_div; [|poly H|poly H]; assumption|cbv beta; unfold stretching_matrix; simpl; field; auto]).
Qed.

(* ---- fibres ---- *)
Lemma rate_sqrt f t a : 0 < f t -> rate f t a -> rate (fun u => sqrt (f u)) t (a / (2 * sqrt (f t))).
Proof.
  intros H A. apply (rate_eq _ _ (/ (2 * sqrt (f t)) * a)); [|unfold Rdiv; ring].
  apply (derivable_pt_lim_comp f sqrt); [exact A|]. apply derivable_pt_lim_sqrt. exact H.
Qed.
Lemma arap_half mu_ tiny d (F Sp : R -> mat) a t G : mat_rate d F t G -> 0 < I5_value d (F t) a ->
  (forall u, I4_sign tiny d (Sp u) a = I4_sign tiny d (Sp t) a) ->
  rate (fun u => arap_psi mu_ tiny d (F u) (Sp u) a) t (2 * contract d (arap_first_piola mu_ tiny d (F t) (Sp t) a) G).
Proof.
  intros HF HI HS. set (s := I4_sign tiny d (Sp t) a) in *.
  apply (rate_ext (fun u => 1/2 * mu_ * ((sqrt (I5_value d (F u) a) - s) * (sqrt (I5_value d (F u) a) - s)))).
  { intros u. unfold arap_psi. rewrite HS. fold s. ring. }
  assert (RI := I5_grad d a (F t) F t G (fun _ _ _ _ => eq_refl) HF).
  assert (RQ := rate_sqrt _ t _ HI RI).
  eapply rate_eq.
  - apply rate_scal. apply rate_mult; (apply rate_minus; [exact RQ|apply rate_const]).
  - cbv beta. unfold I5_gradient. rewrite along_vectorize.
    assert (Q : 0 < sqrt (I5_value d (F t) a)) by (apply sqrt_lt_R0; exact HI).
    set (q := sqrt (I5_value d (F t) a)) in *.
    assert (E1 : contract d (fun i j => mat_mul d (F t) (dyadic a a) i j + mat_mul d (F t) (dyadic a a) i j) G
       = 2 * contract d (mat_mul d (F t) (dyadic a a)) G).
    { unfold contract. rewrite <- vsum_scal. apply vsum_ext; intros i Hi. rewrite <- vsum_scal. apply vsum_ext; intros; ring. }
    assert (E2 : contract d (arap_first_piola mu_ tiny d (F t) (Sp t) a) G
       = 1/2 * mu_ * (1 - s / q) * contract d (mat_mul d (F t) (dyadic a a)) G).
    { unfold contract. rewrite <- vsum_scal. apply vsum_ext; intros i Hi. rewrite <- vsum_scal. apply vsum_ext; intros j Hj.
      unfold arap_first_piola. fold s q. ring. }
    rewrite E1, E2. field. lra.
Qed.

(* ---- deformation gradients of simplices ---- *)
Lemma vsum_S d f : vsum (Datatypes.S d) f = f 0%nat + vsum d (fun i => f (Datatypes.S i)).
Proof. induction d as [|d IH]; simpl in *; [ring|]. rewrite IH. ring. Qed.
Lemma vsum_app m n f : vsum (m + n) f = vsum m f + vsum n (fun i => f (m + i)%nat).
Proof.
  induction n as [|n IH]; simpl; [rewrite Nat.add_0_r; ring|].
  rewrite Nat.add_succ_r. simpl. rewrite IH. ring.
Qed.
Lemma vsum_blocks n d f : vsum (n * d) f = vsum n (fun j => vsum d (fun i => f (j * d + i)%nat)).
Proof.
  induction n as [|n IH]; simpl; [reflexivity|].
  rewrite Nat.add_comm, vsum_app, IH. reflexivity.
Qed.
Lemma dFdX dim bdim DmInv (x : mat) i j : (i < dim)%nat ->
  vsum ((bdim + 1) * dim) (fun c => dFdXMatrix dim bdim DmInv (j * dim + i)%nat c * x (Nat.div c dim) (Nat.modulo c dim))
  = vsum bdim (fun k => (x (k + 1)%nat i - x 0%nat i) * DmInv k j).
Proof.
  intros Hi. rewrite vsum_blocks.
  rewrite (vsum_ext _ _ (fun v => match v with O => negative_col_sum bdim DmInv j | Datatypes.S k => DmInv k j end * x v i)).
  2:{ intros v Hv. apply (vsum_single dim i); [exact Hi| |].
      - intros r Hr N. unfold dFdXMatrix. rewrite !mod_cm by assumption. destruct (Nat.eqb_spec i r); [lia|ring].
      - unfold dFdXMatrix. rewrite !mod_cm, !div_cm, Nat.eqb_refl by assumption. reflexivity. }
  rewrite Nat.add_1_r, vsum_S. unfold negative_col_sum. rewrite <- vsum_scal_r, <- vsum_plus.
  apply vsum_ext; intros k Hk. rewrite Nat.add_1_r. ring.
Qed.
Lemma dFA n A (F : mat) i j : (i < 3)%nat ->
  vsum (n * 3) (fun c => dFAdF A (j * 3 + i)%nat c * F (Nat.modulo c 3) (Nat.div c 3))
  = vsum n (fun k => F i k * A k j).
Proof.
  intros Hi. rewrite vsum_blocks. apply vsum_ext; intros k Hk.
  apply (vsum_single 3 i); [exact Hi| |].
  - intros r Hr N. unfold dFAdF. rewrite !mod_cm by assumption. destruct (Nat.eqb_spec i r); [lia|ring].
  - unfold dFAdF. rewrite !mod_cm, !div_cm, Nat.eqb_refl by assumption. ring.
Qed.

(* ---- degrees and radians ---- *)
Lemma sin_degree : sin (PI / 180) < 1 / 40.
Proof.
  assert (A := PI_4). assert (B := PI_RGT_0).
  apply (Rlt_trans _ (PI / 180)); [apply sin_lt_x; lra|lra].
Qed.
Lemma sin_one : 1 / 2 < sin 1.
Proof.
  assert (A := PI2_3_2). assert (P := PI_RGT_0).
  destruct (pre_sin_bound 1 0 ltac:(lra) ltac:(lra)) as [L _]. unfold sin_approx, sin_term in L. simpl in L.
  lra.
Qed.
