From Coq Require Import ZArith QArith Qround List Lia Lqa.
From Verif Require Import KernModel LcModel LcSpec.
Import ListNotations.

Lemma floor_iff v z : Qfloor v = z <-> (inject_Z z <= v /\ v < inject_Z z + 1)%Q.
Proof.
  split.
  - intros <-. split; [apply Qfloor_le|]. pose proof (Qlt_floor v) as H.
    rewrite inject_Z_plus in H. exact H.
  - intros [A B]. apply Z.le_antisymm.
    + assert (H : (inject_Z (Qfloor v) < inject_Z (z + 1))%Q).
      { rewrite inject_Z_plus. eapply Qle_lt_trans; [apply Qfloor_le|exact B]. }
      rewrite <- Zlt_Qlt in H. lia.
    + rewrite <- (Qfloor_Z z). apply Qfloor_resp_le. exact A.
Qed.
Lemma centred_iff v z : lower_trunc v = z <-> (inject_Z z + (1#2) - (1#2) <= v /\ v < inject_Z z + (1#2) + (1#2))%Q.
Proof. unfold lower_trunc. rewrite floor_iff. split; intros [A B]; split; lra. Qed.
Lemma nodal_iff v z : lower_trunc (v + (1#2))%Q = z <-> (inject_Z z - (1#2) <= v /\ v < inject_Z z + (1#2))%Q.
Proof. unfold lower_trunc. rewrite floor_iff. split; intros [A B]; split; lra. Qed.

Lemma map_iff {A B C} (P : C -> A -> Prop) (f : A -> B) (g : B -> C) :
  (forall v z, f v = z <-> P (g z) v) ->
  forall x X, map f x = X <-> Forall2 P (map g X) x.
Proof.
  intros H x. induction x as [|v x IH]; intros [|z X]; simpl; split; intros E; try discriminate; auto;
    try (inversion E; fail).
  - inversion E; subst. constructor; [apply H; reflexivity|apply IH; reflexivity].
  - inversion E; subst. f_equal; [apply H; assumption|apply IH; assumption].
Qed.
Lemma init_iff {A B C} (P : C -> A -> Prop) (f : nat -> A -> B) (g : nat -> B -> C) :
  (forall d v z, f d v = z <-> P (g d z) v) ->
  forall x X, init f x = X <-> Forall2 P (init g X) x.
Proof.
  intros H. unfold init. generalize 0%nat. intros k x. revert k.
  induction x as [|v x IH]; intros k [|z X]; simpl; split; intros E; try discriminate; auto;
    try (inversion E; fail).
  - inversion E; subst. constructor; [apply H; reflexivity|apply IH; reflexivity].
  - inversion E; subst. f_equal; [apply H; assumption|apply IH; assumption].
Qed.
Lemma box_self c : in_unit_box c c.
Proof. induction c as [|q c IH]; constructor; [split; lra|exact IH]. Qed.
