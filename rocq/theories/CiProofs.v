(* Invariants, their gradients and Hessians. *)
From Coq Require Import Reals Arith Lia Lra.
From Verif Require Import CmModel CmSpec CmProofs CmProofs2 CiModel CiSpec.
Local Open Scope R_scope.

Lemma mod_cm d i j : (i < d)%nat -> Nat.modulo (j * d + i) d = i.
Proof. intros H. rewrite Nat.add_comm, Nat.mod_add by lia. apply Nat.mod_small, H. Qed.
Lemma div_cm d i j : (i < d)%nat -> Nat.div (j * d + i) d = j.
Proof. intros H. rewrite Nat.div_add_l by lia. rewrite Nat.div_small by exact H. lia. Qed.
Lemma vectorize_cm d M i j : (i < d)%nat -> vectorize d M (j * d + i)%nat = M i j.
Proof. intros H. unfold vectorize. rewrite mod_cm, div_cm by exact H. reflexivity. Qed.
Lemma cm_split d n : (n < d * d)%nat -> exists i j, (i < d)%nat /\ (j < d)%nat /\ n = (j * d + i)%nat.
Proof.
  intros H. assert (0 < d)%nat by (destruct d; lia).
  exists (Nat.modulo n d), (Nat.div n d). split; [apply Nat.mod_upper_bound; lia|].
  split; [apply Nat.div_lt_upper_bound; lia|]. rewrite (Nat.div_mod n d) at 1 by lia. lia.
Qed.
Lemma along_vectorize d M G : along d (vectorize d M) G = contract d M G.
Proof. unfold along, contract. apply vsum_ext; intros i Hi. apply vsum_ext; intros j Hj. rewrite vectorize_cm by exact Hi. reflexivity. Qed.
Lemma along_ext d g h G : (forall n, (n < d * d)%nat -> g n = h n) -> along d g G = along d h G.
Proof.
  intros E. unfold along. apply vsum_ext; intros i Hi. apply vsum_ext; intros j Hj.
  rewrite E; [reflexivity|]. nia.
Qed.
Lemma along_plus d g h G : along d (fun n => g n + h n) G = along d g G + along d h G.
Proof.
  unfold along. rewrite <- vsum_plus. apply vsum_ext; intros i Hi. rewrite <- vsum_plus. apply vsum_ext; intros j Hj. ring.
Qed.
Lemma along_scal d c g G : along d (fun n => c * g n) G = c * along d g G.
Proof.
  unfold along. rewrite <- vsum_scal. apply vsum_ext; intros i Hi. rewrite <- vsum_scal. apply vsum_ext; intros j Hj. ring.
Qed.
Lemma along_0 d G : along d (fun _ => 0) G = 0.
Proof.
  unfold along. rewrite (vsum_ext d _ (fun _ => 0)), vsum_0; [reflexivity|].
  intros i _. rewrite (vsum_ext d _ (fun _ => 0)), vsum_0; [reflexivity|]. intros; ring.
Qed.
Lemma rate_opp f t a : rate f t a -> rate (fun u => - f u) t (- a).
Proof. apply derivable_pt_lim_opp. Qed.

(* ---- I2 ---- *)
Lemma I2_grad d F : gradient_at d (I2_value d) F (I2_gradient d F).
Proof.
  intros M t G E H. unfold I2_gradient. rewrite along_vectorize. unfold I2_value.
  eapply rate_eq.
  - apply (rate_vsum d (fun i u => vsum d (fun k => M u k i * M u k i)) t (fun i => vsum d (fun k => G k i * M t k i + M t k i * G k i))).
    intros i Hi. apply (rate_vsum d (fun k u => M u k i * M u k i)). intros k Hk.
    apply (rate_mult (fun u => M u k i) (fun u => M u k i)); apply H; assumption.
  - unfold contract. rewrite vsum_swap. apply vsum_ext; intros i Hi. apply vsum_ext; intros j Hj.
    rewrite E by assumption. ring.
Qed.
Lemma vsum_single d k c f : (k < d)%nat -> (forall i, (i < d)%nat -> i <> k -> f i = 0) -> f k = c -> vsum d f = c.
Proof.
  intros Hk H <-. rewrite <- (vsum_delta d k f Hk). apply vsum_ext. intros i Hi.
  destruct (Nat.eq_dec k i) as [->|N]; [rewrite delta_eq; ring|]. rewrite delta_neq, H by auto. ring.
Qed.
Lemma along_unit d (c : R) i j G : (i < d)%nat -> (j < d)%nat ->
  along d (fun n => if Nat.eqb (j * d + i) n then c else 0) G = c * G i j.
Proof.
  intros Hi Hj. unfold along. apply (vsum_single d i); [exact Hi| |].
  - intros r Hr N. rewrite (vsum_ext d _ (fun _ => 0)), vsum_0; [reflexivity|]. intros s Hs.
    destruct (Nat.eqb_spec (j * d + i) (s * d + r)) as [E|]; [|ring]. exfalso. apply N.
    rewrite <- (mod_cm d r s), <- E, mod_cm by assumption. reflexivity.
  - apply (vsum_single d j); [exact Hj| |].
    + intros s Hs N. destruct (Nat.eqb_spec (j * d + i) (s * d + i)) as [E|]; [|ring]. exfalso. apply N.
      rewrite <- (div_cm d i s), <- E, div_cm by assumption. reflexivity.
    + rewrite Nat.eqb_refl. reflexivity.
Qed.
Lemma I2_hess d F : jacobian_at d (I2_gradient d) F I2_hessian.
Proof.
  intros M t G n E H Hn. destruct (cm_split d n Hn) as (i & j & Hi & Hj & ->).
  unfold I2_hessian. rewrite along_unit by assumption. unfold I2_gradient.
  apply (rate_ext (fun u => M u i j + M u i j)); [intros u; rewrite vectorize_cm by exact Hi; reflexivity|].
  eapply rate_eq; [apply (rate_plus (fun u => M u i j) (fun u => M u i j)); apply H; assumption|ring].
Qed.

(* ---- polynomials in the entries ---- *)
Ltac poly H := repeat first
  [ apply H; lia | apply rate_const
  | apply rate_plus | apply rate_minus | apply rate_opp | apply rate_mult ].
Ltac three d Hd := destruct Hd as [-> | [-> | ->]].

(* ---- I3 ---- *)
Lemma I3_grad d F : small_dim d -> gradient_at d (I3_value d) F (I3_gradient d F).
Proof.
  intros Hd M t G E H. three d Hd; unfold I3_value, along, I3_gradient; simpl.
  - eapply rate_eq; [apply H; lia|]. ring.
  - eapply rate_eq; [poly H|]. cbv beta. rewrite !E by lia. ring.
  - eapply rate_eq; [poly H|]. cbv beta. unfold cross, col; simpl. rewrite !E by lia. ring.
Qed.
Lemma I3_hess d F : small_dim d -> jacobian_at d (I3_gradient d) F (I3_hessian d F).
Proof.
  intros Hd M t G n E H Hn. three d Hd; unfold along, I3_gradient, I3_hessian; simpl.
  - eapply rate_eq; [apply rate_const|ring].
  - destruct n as [|[|[|[|n]]]]; try (simpl in Hn; lia); (eapply rate_eq; [poly H|]; cbv beta; rewrite ?E by lia; simpl; ring).
  - do 9 (destruct n as [|n]; [unfold cross, col; simpl; eapply rate_eq; [poly H|]; cbv beta; rewrite ?E by lia; ring|]).
    simpl in Hn. lia.
Qed.
Lemma I3_det d F : small_dim d -> I3_value d F = determinant d F.
Proof. intros Hd. three d Hd; unfold I3_value, determinant; ring. Qed.

(* ---- I5 ---- *)
Lemma mat_vec_rate d M t G a i : mat_rate d M t G -> (i < d)%nat ->
  rate (fun u => mat_vec d (M u) a i) t (mat_vec d G a i).
Proof.
  intros H Hi. unfold mat_vec. apply (rate_vsum d (fun k u => M u i k * a k)). intros k Hk.
  eapply rate_eq; [apply (rate_mult (fun u => M u i k) (fun _ => a k)); [apply H; assumption|apply rate_const]|ring].
Qed.
Lemma mat_vec_ext d F F' a i : (forall j, (j < d)%nat -> F i j = F' i j) -> mat_vec d F a i = mat_vec d F' a i.
Proof. intros H. apply vsum_ext. intros k Hk. rewrite H by exact Hk. reflexivity. Qed.
Lemma mat_mul_dyadic d F a i j : mat_mul d F (dyadic a a) i j = mat_vec d F a i * a j.
Proof. unfold mat_mul, mat_vec, dyadic. rewrite <- vsum_scal_r. apply vsum_ext. intros; ring. Qed.
Lemma I5_grad d a F : gradient_at d (fun F => I5_value d F a) F (I5_gradient d F a).
Proof.
  intros M t G E H. unfold I5_gradient. rewrite along_vectorize. unfold I5_value.
  eapply rate_eq.
  - apply (rate_vsum d (fun i u => mat_vec d (M u) a i * mat_vec d (M u) a i) t
      (fun i => mat_vec d G a i * mat_vec d (M t) a i + mat_vec d (M t) a i * mat_vec d G a i)).
    intros i Hi. apply (rate_mult (fun u => mat_vec d (M u) a i) (fun u => mat_vec d (M u) a i)); apply mat_vec_rate; assumption.
  - unfold contract. apply vsum_ext; intros i Hi.
    rewrite (mat_vec_ext d (M t) F) by (intros; apply E; assumption).
    rewrite (vsum_ext d _ (fun j => (2 * mat_vec d F a i) * (G i j * a j))).
    2:{ intros j Hj. rewrite mat_mul_dyadic. ring. }
    rewrite vsum_scal. change (vsum d (fun j => G i j * a j)) with (mat_vec d G a i). ring.
Qed.
Lemma I5_hess d a F : jacobian_at d (fun F => I5_gradient d F a) F (I5_hessian d a).
Proof.
  intros M t G n E H Hn. destruct (cm_split d n Hn) as (i & j & Hi & Hj & ->).
  apply (rate_ext (fun u => mat_vec d (M u) a i * (2 * a j))).
  { intros u. unfold I5_gradient. rewrite vectorize_cm, mat_mul_dyadic by exact Hi. ring. }
  eapply rate_eq; [apply (rate_mult (fun u => mat_vec d (M u) a i) (fun _ => 2 * a j)); [exact (mat_vec_rate d M t G a i H Hi)|apply rate_const]|].
  symmetry. unfold along, I5_hessian. apply (vsum_single d i); [exact Hi| |].
  - intros r Hr N. rewrite (vsum_ext d _ (fun _ => 0)), vsum_0; [reflexivity|]. intros s Hs.
    rewrite !mod_cm by assumption. destruct (Nat.eqb_spec i r); [lia|ring].
  - unfold mat_vec. rewrite (vsum_ext d _ (fun s => (2 * a j) * (G i s * a s))).
    2:{ intros s Hs. rewrite !mod_cm, !div_cm, Nat.eqb_refl by assumption. unfold dyadic. ring. }
    rewrite vsum_scal. ring.
Qed.
