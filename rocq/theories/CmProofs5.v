From Coq Require Import Reals Arith Lia Lra List.
From Verif Require Import CmModel CmSpec CmProofs CmProofs2 CmProofs3 CmProofs4.
Local Open Scope R_scope.

(* ---- positive semi-definiteness ---- *)
Lemma vsum9 f : vsum 9 f = vsum 3 (fun i => vsum 3 (fun j => f (j * 3 + i)%nat)).
Proof. simpl. ring. Qed.
Lemma vsum4 f : vsum 4 f = vsum 2 (fun i => vsum 2 (fun j => f (j * 2 + i)%nat)).
Proof. simpl. ring. Qed.
Lemma contract_uK d U K V X : contract d X (uK d U K V) = contract d (hat d U V X) K.
Proof.
  unfold contract, uK, hat.
  transitivity (vsum d (fun i => vsum d (fun j => vsum d (fun k => vsum d (fun l => U i k * X i j * V j l * K k l))))).
  { apply vsum_ext; intros i Hi; apply vsum_ext; intros j Hj. rewrite <- vsum_scal. apply vsum_ext; intros k Hk.
    rewrite <- vsum_scal. apply vsum_ext; intros l Hl. ring. }
  transitivity (vsum d (fun i => vsum d (fun k => vsum d (fun j => vsum d (fun l => U i k * X i j * V j l * K k l))))).
  { apply vsum_ext; intros i Hi. apply vsum_swap. }
  rewrite vsum_swap. apply vsum_ext; intros k Hk.
  transitivity (vsum d (fun i => vsum d (fun l => vsum d (fun j => U i k * X i j * V j l * K k l)))).
  { apply vsum_ext; intros i Hi. apply vsum_swap. }
  rewrite vsum_swap. apply vsum_ext; intros l Hl.
  rewrite <- vsum_scal_r. apply vsum_ext; intros i Hi. rewrite <- vsum_scal_r. reflexivity.
Qed.

Theorem fpd_psd pd M d U S V : (d = 2 \/ d = 3)%nat ->
  symmetric d (pd d (d2psi_dsigma2 M d S)) -> psd d (pd d (d2psi_dsigma2 M d S)) ->
  (forall k, (k < d)%nat -> symmetric 2 (pd 2%nat (compute_Bij M d S k)) /\ psd 2 (pd 2%nat (compute_Bij M d S k))) ->
  psd (d * d) (first_piola_derivative pd M d U S V).
Proof.
  intros [-> | ->] SA PA HB x.
  - destruct (HB 0%nat ltac:(lia)) as [S0 P0]. change (2 * 2)%nat with 4%nat.
    set (X := fun i j => x (j * 2 + i)%nat).
    set (A := pd 2%nat (d2psi_dsigma2 M 2 S)) in *. set (B := pd 2%nat (compute_Bij M 2 S 0)) in *.
    assert (E : vsum 4 (fun i => vsum 4 (fun j => x i * first_piola_derivative pd M 2 U S V i j * x j))
       = contract 2 X (uK 2 U (K2 A B (hat 2 U V X)) V)).
    { rewrite vsum4. unfold contract. apply vsum_ext; intros i Hi. apply vsum_ext; intros j Hj.
      rewrite vsum4, <- apply2, <- vsum_scal. apply vsum_ext; intros r Hr.
      rewrite <- vsum_scal. apply vsum_ext; intros s Hs. rewrite fpd2 by assumption. unfold X, A, B. ring. }
    rewrite E, contract_uK. set (h := hat 2 U V X).
    assert (QA := PA (fun i => h i i)). assert (QB := P0 (fun i => match i with O => h 0%nat 1%nat | _ => h 1%nat 0%nat end)).
    assert (EE : contract 2 h (K2 A B h) = vsum 2 (fun i => vsum 2 (fun j => h i i * A i j * h j j))
       + vsum 2 (fun i => vsum 2 (fun j => (match i with O => h 0%nat 1%nat | _ => h 1%nat 0%nat end) * B i j * (match j with O => h 0%nat 1%nat | _ => h 1%nat 0%nat end)))).
    { unfold contract, K2, vsum. ring. }
    rewrite EE. apply Rplus_le_le_0_compat; [exact QA|exact QB].
  - destruct (HB 0%nat ltac:(lia)) as [S0 P0]. destruct (HB 1%nat ltac:(lia)) as [S1 P1]. destruct (HB 2%nat ltac:(lia)) as [S2 P2].
    change (3 * 3)%nat with 9%nat.
    set (X := fun i j => x (j * 3 + i)%nat).
    set (A := pd 3%nat (d2psi_dsigma2 M 3 S)) in *. set (B0 := pd 2%nat (compute_Bij M 3 S 0)) in *.
    set (B1 := pd 2%nat (compute_Bij M 3 S 1)) in *. set (B2 := pd 2%nat (compute_Bij M 3 S 2)) in *.
    assert (E : vsum 9 (fun i => vsum 9 (fun j => x i * first_piola_derivative pd M 3 U S V i j * x j))
       = contract 3 X (uK 3 U (K3 A B0 B1 B2 (hat 3 U V X)) V)).
    { rewrite vsum9. unfold contract. apply vsum_ext; intros i Hi. apply vsum_ext; intros j Hj.
      rewrite vsum9, <- apply3, <- vsum_scal. apply vsum_ext; intros r Hr.
      rewrite <- vsum_scal. apply vsum_ext; intros s Hs. rewrite fpd3; try assumption.
      - unfold X, A, B0, B1, B2. ring.
      - intros k Hk. apply HB; exact Hk. }
    rewrite E, contract_uK. set (h := hat 3 U V X).
    assert (QA := PA (fun i => h i i)).
    assert (Q0 := P0 (fun i => match i with O => h 0%nat 1%nat | _ => h 1%nat 0%nat end)).
    assert (Q1 := P1 (fun i => match i with O => h 1%nat 2%nat | _ => h 2%nat 1%nat end)).
    assert (Q2 := P2 (fun i => match i with O => h 2%nat 0%nat | _ => h 0%nat 2%nat end)).
    assert (EE : contract 3 h (K3 A B0 B1 B2 h) = vsum 3 (fun i => vsum 3 (fun j => h i i * A i j * h j j))
       + vsum 2 (fun i => vsum 2 (fun j => (match i with O => h 0%nat 1%nat | _ => h 1%nat 0%nat end) * B0 i j * (match j with O => h 0%nat 1%nat | _ => h 1%nat 0%nat end)))
       + vsum 2 (fun i => vsum 2 (fun j => (match i with O => h 1%nat 2%nat | _ => h 2%nat 1%nat end) * B1 i j * (match j with O => h 1%nat 2%nat | _ => h 2%nat 1%nat end)))
       + vsum 2 (fun i => vsum 2 (fun j => (match i with O => h 2%nat 0%nat | _ => h 0%nat 2%nat end) * B2 i j * (match j with O => h 2%nat 0%nat | _ => h 0%nat 2%nat end)))).
    { unfold contract, K3, vsum. ring. }
    rewrite EE. apply Rplus_le_le_0_compat; [apply Rplus_le_le_0_compat; [apply Rplus_le_le_0_compat; [exact QA|exact Q0]|exact Q1]|exact Q2].
Qed.
Theorem fpd_sym pd M d U S V : symmetric (d * d) (first_piola_derivative pd M d U S V).
Proof. intros i j _ _. unfold first_piola_derivative. rewrite Nat.max_comm, Nat.min_comm. reflexivity. Qed.

(* ---- inverted Hencky material: a rotation about the first axis ---- *)
Definition S_inv : vec := fun i => match i with 0%nat => 4 | 1%nat => 2 | _ => -1 end.
Definition turn (t : R) : mat := fun i j =>
  match i, j with
  | 0%nat, 0%nat => 1
  | 1%nat, 1%nat | 2%nat, 2%nat => cos t
  | 1%nat, 2%nat => - sin t
  | 2%nat, 1%nat => sin t
  | _, _ => 0
  end.
Definition turn' : mat := fun i j =>
  match i, j with 1%nat, 2%nat => -1 | 2%nat, 1%nat => 1 | _, _ => 0 end.
Lemma turn_orthogonal t : orthogonal 3 (turn t).
Proof.
  assert (C : cos t * cos t = 1 - sin t * sin t) by (assert (A := sin2_cos2 t); unfold Rsqr in A; lra).
  split; intros i j Hi Hj; destruct i as [|[|[|i]]]; try lia; destruct j as [|[|[|j]]]; try lia;
    unfold delta; simpl; try ring; ring_simplify; try rewrite <- ?Rsqr_pow2; unfold Rsqr; try nra.
Qed.
Lemma turn_rate : mat_rate 3 turn 0 turn'.
Proof.
  assert (RC : rate cos 0 0) by (eapply rate_eq; [apply derivable_pt_lim_cos|rewrite sin_0; ring]).
  assert (RS : rate sin 0 1) by (eapply rate_eq; [apply derivable_pt_lim_sin|rewrite cos_0; ring]).
  intros i j Hi Hj; destruct i as [|[|[|i]]]; try lia; destruct j as [|[|[|j]]]; try lia; simpl;
    try apply rate_const; try exact RC; try exact RS.
  apply derivable_pt_lim_opp. exact RS.
Qed.
