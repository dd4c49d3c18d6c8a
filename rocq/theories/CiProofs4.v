(* Determinants of products; agreement of the two neo-Hookean materials; frames. *)
From Coq Require Import Reals Arith Lia Lra Psatz.
From Verif Require Import CmModel CmSpec CmProofs CmProofs2 CiModel CiSpec CiProofs.
Local Open Scope R_scope.

Lemma det_ext d A B : small_dim d -> (forall i j, (i < d)%nat -> (j < d)%nat -> A i j = B i j) -> determinant d A = determinant d B.
Proof. intros Hd E. three d Hd; unfold determinant; rewrite !E by lia; reflexivity. Qed.
Lemma det_mul d A B : small_dim d -> determinant d (mat_mul d A B) = determinant d A * determinant d B.
Proof. intros Hd. three d Hd; unfold determinant, mat_mul; simpl; ring. Qed.
Lemma det_transpose d A : small_dim d -> determinant d (fun i j => A j i) = determinant d A.
Proof. intros Hd. three d Hd; unfold determinant; ring. Qed.
Lemma det_diag d s : small_dim d -> determinant d (fun i j => if Nat.eqb i j then s i else 0) = vprod d s.
Proof. intros Hd. three d Hd; unfold determinant; simpl; ring. Qed.
Lemma I3_compose d F U S V : small_dim d -> decomposes d F U S V -> determinant d U = 1 -> determinant d V = 1 ->
  I3_value d F = vprod d S.
Proof.
  intros Hd (_ & _ & E) DU DV. rewrite I3_det by exact Hd.
  rewrite (det_ext d F (mat_mul d (mat_mul d U (fun i j => if Nat.eqb i j then S i else 0)) (fun i j => V j i))); [|exact Hd|].
  2:{ intros i j Hi Hj. rewrite E by assumption. unfold mat_mul. apply vsum_ext; intros k Hk.
      f_equal. symmetry. apply (vsum_single d k); [exact Hk| |rewrite Nat.eqb_refl; reflexivity].
      intros l Hl N. destruct (Nat.eqb_spec l k); [contradiction|ring]. }
  rewrite !det_mul, (det_transpose d V), det_diag, DU, DV by exact Hd. ring.
Qed.
Lemma I2_left d R F : orthogonal d R -> I2_value d (mat_mul d R F) = I2_value d F.
Proof.
  intros [O _]. unfold I2_value. apply vsum_ext; intros i Hi. unfold mat_mul.
  rewrite (vsum_ext d _ (fun k => vsum d (fun l => vsum d (fun m => (R k l * R k m) * (F l i * F m i))))).
  2:{ intros k Hk. rewrite <- vsum_scal_r. apply vsum_ext; intros l Hl. rewrite <- vsum_scal. apply vsum_ext; intros; ring. }
  rewrite vsum_swap. apply vsum_ext; intros l Hl. rewrite vsum_swap.
  rewrite (vsum_ext d _ (fun m => delta l m * (F l i * F m i))).
  2:{ intros m Hm. rewrite vsum_scal_r, O by assumption. reflexivity. }
  rewrite vsum_delta by exact Hl. reflexivity.
Qed.
Lemma I2_transpose d F : I2_value d (fun i j => F j i) = I2_value d F.
Proof. unfold I2_value. apply vsum_swap. Qed.
Lemma I2_ext d F F' : (forall i j, (i < d)%nat -> (j < d)%nat -> F i j = F' i j) -> I2_value d F = I2_value d F'.
Proof. intros E. unfold I2_value. apply vsum_ext; intros i Hi. apply vsum_ext; intros k Hk. rewrite E by assumption. reflexivity. Qed.
Lemma I2_compose d F U S V : decomposes d F U S V -> I2_value d F = vsum d (fun i => S i * S i).
Proof.
  intros (OU & OV & E).
  set (D := fun i j => if Nat.eqb i j then S i else 0).
  assert (X : I2_value d F = I2_value d (mat_mul d U (mat_mul d D (fun i j => V j i)))).
  { apply I2_ext. intros i j Hi Hj. rewrite E by assumption. unfold mat_mul. apply vsum_ext; intros k Hk.
    rewrite Rmult_assoc. f_equal. symmetry. apply (vsum_single d k); [exact Hk| |unfold D; rewrite Nat.eqb_refl; reflexivity].
    intros l Hl N. unfold D. destruct (Nat.eqb_spec k l); [congruence|ring]. }
  rewrite X, I2_left by exact OU. rewrite <- I2_transpose.
  rewrite (I2_ext d _ (mat_mul d V D)).
  2:{ intros i j Hi Hj. unfold mat_mul. apply vsum_ext; intros k Hk. unfold D.
      destruct (Nat.eqb_spec j k) as [->|N]; [rewrite Nat.eqb_refl; ring|].
      destruct (Nat.eqb_spec k j); [congruence|ring]. }
  rewrite I2_left by exact OV. unfold I2_value. apply vsum_ext; intros i Hi.
  apply (vsum_single d i); [exact Hi| |unfold D; rewrite Nat.eqb_refl; reflexivity].
  intros k Hk N. unfold D. destruct (Nat.eqb_spec k i); [contradiction|ring].
Qed.
Lemma agree m d F U S V : small_dim d -> decomposes d F U S V -> determinant d U = 1 -> determinant d V = 1 ->
  inv_psi (neo_hookean_invariant m) d F S = psi (neo_hookean m) d S + 1/2 * mu m * (INR d - 3).
Proof.
  intros Hd HD DU DV. unfold inv_psi, psi; simpl. unfold nh_psi.
  rewrite (I3_compose d F U S V), (I2_compose d F U S V) by assumption. ring.
Qed.
Lemma objective d R F S S' M (ok : forall Is Js, Is 1%nat = Js 1%nat -> Is 2%nat = Js 2%nat -> psi_I M Is = psi_I M Js) :
  small_dim d -> orthogonal d R -> determinant d R = 1 ->
  inv_psi M d (mat_mul d R F) S' = inv_psi M d F S.
Proof.
  intros Hd O D. unfold inv_psi. apply ok; simpl.
  - apply I2_left, O.
  - rewrite !I3_det, det_mul, D by exact Hd. ring.
Qed.
