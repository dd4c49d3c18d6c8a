From Coq Require Import Reals Arith Lia Lra List.
From Verif Require Import CmModel CmSpec CmProofs CmProofs2.
Local Open Scope R_scope.

(* index arithmetic *)
Lemma split_index d i j : (i < d)%nat -> Nat.div (j * d + i) d = j /\ (j * d + i - j * d = i)%nat.
Proof.
  intros H. split; [|lia].
  rewrite Nat.div_add_l by lia. rewrite Nat.div_small by exact H. lia.
Qed.

Lemma entry3_sym A B0 B1 B2 U V i j r s : symmetric 3 A -> symmetric 2 B0 -> symmetric 2 B1 -> symmetric 2 B2 ->
  entry3 A B0 B1 B2 U V i j r s = entry3 A B0 B1 B2 U V r s i j.
Proof.
  intros HA H0 H1 H2. unfold entry3.
  rewrite (HA 1%nat 0%nat), (HA 2%nat 0%nat), (HA 2%nat 1%nat), (H0 1%nat 0%nat), (H1 1%nat 0%nat), (H2 1%nat 0%nat) by lia. ring.
Qed.
Lemma entry2_sym A B U V i j r s : symmetric 2 A -> symmetric 2 B ->
  entry2 A B U V i j r s = entry2 A B U V r s i j.
Proof. intros HA HB. unfold entry2. rewrite (HA 1%nat 0%nat), (HB 1%nat 0%nat) by lia. ring. Qed.

Lemma fpd3 pd M U S V i j r s : (i < 3)%nat -> (j < 3)%nat -> (r < 3)%nat -> (s < 3)%nat ->
  symmetric 3 (pd 3%nat (d2psi_dsigma2 M 3 S)) ->
  (forall k, (k < 3)%nat -> symmetric 2 (pd 2%nat (compute_Bij M 3 S k))) ->
  first_piola_derivative pd M 3 U S V (j * 3 + i)%nat (s * 3 + r)%nat
  = entry3 (pd 3%nat (d2psi_dsigma2 M 3 S)) (pd 2%nat (compute_Bij M 3 S 0)) (pd 2%nat (compute_Bij M 3 S 1))
      (pd 2%nat (compute_Bij M 3 S 2)) U V i j r s.
Proof.
  intros Hi Hj Hr Hs SA SB. unfold first_piola_derivative. cbv zeta.
  destruct (split_index 3 i j Hi) as [E1 E2]. destruct (split_index 3 r s Hr) as [E3 E4].
  destruct (Nat.max_spec (j * 3 + i)%nat (s * 3 + r)%nat) as [[C ->]|[C ->]].
  - rewrite Nat.min_l by lia. rewrite E1, E2, E3, E4. apply entry3_sym; auto.
  - rewrite Nat.min_r by lia. rewrite E1, E2, E3, E4. reflexivity.
Qed.
Lemma fpd2 pd M U S V i j r s : (i < 2)%nat -> (j < 2)%nat -> (r < 2)%nat -> (s < 2)%nat ->
  symmetric 2 (pd 2%nat (d2psi_dsigma2 M 2 S)) ->
  symmetric 2 (pd 2%nat (compute_Bij M 2 S 0)) ->
  first_piola_derivative pd M 2 U S V (j * 2 + i)%nat (s * 2 + r)%nat
  = entry2 (pd 2%nat (d2psi_dsigma2 M 2 S)) (pd 2%nat (compute_Bij M 2 S 0)) U V i j r s.
Proof.
  intros Hi Hj Hr Hs SA SB. unfold first_piola_derivative. cbv zeta.
  destruct (split_index 2 i j Hi) as [E1 E2]. destruct (split_index 2 r s Hr) as [E3 E4].
  destruct (Nat.max_spec (j * 2 + i)%nat (s * 2 + r)%nat) as [[C ->]|[C ->]].
  - rewrite Nat.min_l by lia. rewrite E1, E2, E3, E4. apply entry2_sym; auto.
  - rewrite Nat.min_r by lia. rewrite E1, E2, E3, E4. reflexivity.
Qed.
Lemma Bij_sym M d S k : symmetric 2 (compute_Bij M d S k).
Proof. intros i j _ _. unfold compute_Bij. cbv zeta. rewrite Nat.eqb_sym. reflexivity. Qed.
Lemma d2_sym k m d S : symmetric d (d2psi_dsigma2 (model k m) d S).
Proof.
  intros i j Hi Hj. destruct k; simpl.
  - unfold fc_d2psi. cbv zeta. destruct d as [|[|[|[|d]]]]; [lia| | | |reflexivity];
    destruct i as [|[|[|i]]]; try lia; destruct j as [|[|[|j]]]; try lia; try reflexivity.
  - unfold hk_d2psi. cbv zeta. destruct (Nat.eqb_spec i j) as [->|N]; [rewrite Nat.eqb_refl; reflexivity|].
    destruct (Nat.eqb_spec j i) as [E|_]; [congruence|]. rewrite (Rmult_comm (S i)). reflexivity.
  - unfold nh_d2psi. cbv zeta. destruct (Nat.eqb_spec i j) as [->|N]; [rewrite Nat.eqb_refl; reflexivity|].
    destruct (Nat.eqb_spec j i) as [E|_]; [congruence|]. rewrite (Rmult_comm (S i)). reflexivity.
Qed.

(* the matrix in the rotated frame *)
Definition K3 (A B0 B1 B2 h : mat) : mat := fun k l =>
  match k, l with
  | 0%nat, 0%nat => A 0%nat 0%nat * h 0%nat 0%nat + A 0%nat 1%nat * h 1%nat 1%nat + A 0%nat 2%nat * h 2%nat 2%nat
  | 1%nat, 1%nat => A 1%nat 0%nat * h 0%nat 0%nat + A 1%nat 1%nat * h 1%nat 1%nat + A 1%nat 2%nat * h 2%nat 2%nat
  | 2%nat, 2%nat => A 2%nat 0%nat * h 0%nat 0%nat + A 2%nat 1%nat * h 1%nat 1%nat + A 2%nat 2%nat * h 2%nat 2%nat
  | 0%nat, 1%nat => B0 0%nat 0%nat * h 0%nat 1%nat + B0 0%nat 1%nat * h 1%nat 0%nat
  | 1%nat, 0%nat => B0 1%nat 0%nat * h 0%nat 1%nat + B0 1%nat 1%nat * h 1%nat 0%nat
  | 1%nat, 2%nat => B1 0%nat 0%nat * h 1%nat 2%nat + B1 0%nat 1%nat * h 2%nat 1%nat
  | 2%nat, 1%nat => B1 1%nat 0%nat * h 1%nat 2%nat + B1 1%nat 1%nat * h 2%nat 1%nat
  | 0%nat, 2%nat => B2 1%nat 1%nat * h 0%nat 2%nat + B2 1%nat 0%nat * h 2%nat 0%nat
  | 2%nat, 0%nat => B2 0%nat 1%nat * h 0%nat 2%nat + B2 0%nat 0%nat * h 2%nat 0%nat
  | _, _ => 0
  end.
Definition K2 (A B h : mat) : mat := fun k l =>
  match k, l with
  | 0%nat, 0%nat => A 0%nat 0%nat * h 0%nat 0%nat + A 0%nat 1%nat * h 1%nat 1%nat
  | 1%nat, 1%nat => A 1%nat 0%nat * h 0%nat 0%nat + A 1%nat 1%nat * h 1%nat 1%nat
  | 0%nat, 1%nat => B 0%nat 0%nat * h 0%nat 1%nat + B 0%nat 1%nat * h 1%nat 0%nat
  | 1%nat, 0%nat => B 1%nat 0%nat * h 0%nat 1%nat + B 1%nat 1%nat * h 1%nat 0%nat
  | _, _ => 0
  end.
Definition uK (d : nat) (U K V : mat) : mat := fun i j => vsum d (fun k => vsum d (fun l => U i k * K k l * V j l)).
Lemma apply3 A B0 B1 B2 U V G i j :
  vsum 3 (fun r => vsum 3 (fun s => entry3 A B0 B1 B2 U V i j r s * G r s))
  = uK 3 U (K3 A B0 B1 B2 (hat 3 U V G)) V i j.
Proof. unfold uK, K3, hat, entry3, vsum. ring. Qed.
Lemma apply2 A B U V G i j :
  vsum 2 (fun r => vsum 2 (fun s => entry2 A B U V i j r s * G r s))
  = uK 2 U (K2 A B (hat 2 U V G)) V i j.
Proof. unfold uK, K2, hat, entry2, vsum. ring. Qed.

(* one pair of axes *)
Lemma pair_block l D g0 g1 s0 s1 X Z h01 h10 :
  2 * (s0 - s1) * l = g0 - g1 -> D = s0 + s1 -> D <> 0 ->
  h01 = X * s1 + s0 * Z -> h10 = - X * s0 + s1 * - Z ->
  (l + (g0 + g1) / (D + D)) * h01 + (l - (g0 + g1) / (D + D)) * h10 = X * g1 + g0 * Z /\
  (l - (g0 + g1) / (D + D)) * h01 + (l + (g0 + g1) / (D + D)) * h10 = - X * g0 + g1 * - Z.
Proof.
  intros Hl -> ND -> ->.
  set (r := (g0 + g1) / (s0 + s1 + (s0 + s1))).
  assert (Hr : 2 * (s0 + s1) * r = g0 + g1) by (unfold r; field; lra).
  split.
  - replace ((l + r) * (X * s1 + s0 * Z) + (l - r) * (- X * s0 + s1 * - Z))
      with (- (X - Z) * ((2 * (s0 - s1) * l) / 2) + (X + Z) * ((2 * (s0 + s1) * r) / 2)) by field.
    rewrite Hl, Hr. field.
  - replace ((l - r) * (X * s1 + s0 * Z) + (l + r) * (- X * s0 + s1 * - Z))
      with (- (X - Z) * ((2 * (s0 - s1) * l) / 2) - (X + Z) * ((2 * (s0 + s1) * r) / 2)) by field.
    rewrite Hl, Hr. field.
Qed.

Definition left_ok (M : iso) (d : nat) (S : vec) : Prop := forall k, pairs d k -> let (i, j) := pair_of k in
  2 * (S i - S j) * Bij_neg_coeff M d S k = dpsi_dsigma M d S i - dpsi_dsigma M d S j.
Definition sums_ok (d : nat) (S : vec) : Prop :=
  forall i j, (i < d)%nat -> (j < d)%nat -> i <> j -> 1 / 1000000 <= S i + S j.
Lemma rmax_left x e : e <= x -> Rmax x e = x.
Proof. intros H. apply Rmax_left. exact H. Qed.

Section Stiffness.
Variable M : iso.
Variables (U V F : R -> mat) (S : R -> vec) (t : R) (U' V' G : mat) (S' g' : vec).
Section D3.
Hypothesis HF : forall u, decomposes 3 (F u) (U u) (S u) (V u).
Hypothesis HG : mat_rate 3 F t G.
Hypothesis HU : mat_rate 3 U t U'.
Hypothesis HS : vec_rate 3 S t S'.
Hypothesis HV : mat_rate 3 V t V'.
Hypothesis Hg : vec_rate 3 (fun u => dpsi_dsigma M 3 (S u)) t (row 3 (d2psi_dsigma2 M 3 (S t)) S').
Hypothesis HL : left_ok M 3 (S t).
Hypothesis HP : sums_ok 3 (S t).
Hypothesis SA : symmetric 3 (d2psi_dsigma2 M 3 (S t)).

Lemma stiffness3 i j : (i < 3)%nat -> (j < 3)%nat ->
  rate (fun u => first_piola M 3 (U u) (S u) (V u) i j) t
    (vsum 3 (fun r => vsum 3 (fun s =>
       first_piola_derivative keep M 3 (U t) (S t) (V t) (j * 3 + i)%nat (s * 3 + r)%nat * G r s))).
Proof.
  intros Hi Hj.
  assert (OU := proj1 (HF t)). assert (OV := proj1 (proj2 (HF t))).
  eapply rate_eq.
  - unfold first_piola. apply (rate_compose 3 U U' (fun u => dpsi_dsigma M 3 (S u)) (row 3 (d2psi_dsigma2 M 3 (S t)) S') V V' t); assumption.
  - rewrite (vsum_ext 3 (fun r => vsum 3 (fun s =>
       first_piola_derivative keep M 3 (U t) (S t) (V t) (j * 3 + i)%nat (s * 3 + r)%nat * G r s))
      (fun r => vsum 3 (fun s => entry3 (d2psi_dsigma2 M 3 (S t)) (compute_Bij M 3 (S t) 0) (compute_Bij M 3 (S t) 1)
         (compute_Bij M 3 (S t) 2) (U t) (V t) i j r s * G r s))).
    2:{ intros r Hr. apply vsum_ext. intros s Hs. f_equal.
        apply (fpd3 keep); try assumption. intros; apply Bij_sym. }
    rewrite apply3.
    rewrite <- (unhat 3 (U t) (V t) (dcompose 3 (U t) U' (dpsi_dsigma M 3 (S t)) (row 3 (d2psi_dsigma2 M 3 (S t)) S') (V t) V') i j OU OV Hi Hj).
    unfold uK. apply vsum_ext. intros k Hk. apply vsum_ext. intros l Hl. f_equal. f_equal.
    rewrite hat_dcompose by assumption.
    assert (EH : forall k l, (k < 3)%nat -> (l < 3)%nat -> hat 3 (U t) (V t) G k l
       = gram 3 (U t) U' k l * S t l + delta k l * S' l + S t k * gram 3 (V t) V' l k).
    { intros a b Ha Hb. rewrite (hat_ext 3 (U t) (V t) G (dcompose 3 (U t) U' (S t) S' (V t) V')).
      - apply hat_dcompose; assumption.
      - intros p q Hp Hq. eapply rate_unique; [apply HG; assumption|].
        eapply rate_ext; [|apply rate_compose; eassumption]. intros u. symmetry. apply HF; assumption. }
    assert (SU := gram_skew 3 U U' t (fun u => proj1 (HF u)) HU).
    assert (SV := gram_skew 3 V V' t (fun u => proj1 (proj2 (HF u))) HV).
    assert (L01 := HL 0%nat ltac:(right; split; [reflexivity|lia])).
    assert (L12 := HL 1%nat ltac:(right; split; [reflexivity|lia])).
    assert (L02 := HL 2%nat ltac:(right; split; [reflexivity|lia])).
    simpl in L01, L12, L02.
    assert (P01 := HP 0%nat 1%nat ltac:(lia) ltac:(lia) ltac:(lia)).
    assert (P12 := HP 1%nat 2%nat ltac:(lia) ltac:(lia) ltac:(lia)).
    assert (P20 := HP 2%nat 0%nat ltac:(lia) ltac:(lia) ltac:(lia)).
    assert (D0 : forall a, (a < 3)%nat -> gram 3 (U t) U' a a = 0) by (intros a Ha; specialize (SU a a Ha Ha); lra).
    assert (D1 : forall a, (a < 3)%nat -> gram 3 (V t) V' a a = 0) by (intros a Ha; specialize (SV a a Ha Ha); lra).
    set (g := dpsi_dsigma M 3 (S t)) in *. set (A := d2psi_dsigma2 M 3 (S t)) in *.
    assert (Q : forall a b X Z l D, X = gram 3 (U t) U' a b -> Z = gram 3 (V t) V' b a -> D = S t a + S t b ->
              (a < 3)%nat -> (b < 3)%nat -> a <> b -> 1 / 1000000 <= D -> 2 * (S t a - S t b) * l = g a - g b ->
      (l + (g a + g b) / (D + D)) * hat 3 (U t) (V t) G a b + (l - (g a + g b) / (D + D)) * hat 3 (U t) (V t) G b a = X * g b + g a * Z /\
      (l - (g a + g b) / (D + D)) * hat 3 (U t) (V t) G a b + (l + (g a + g b) / (D + D)) * hat 3 (U t) (V t) G b a = - X * g a + g b * - Z).
    { intros a b X Z l0 D -> -> ED Ha Hb N PD EL.
      apply (pair_block l0 D (g a) (g b) (S t a) (S t b)); [exact EL|exact ED|lra| |].
      - rewrite EH, delta_neq by assumption. ring.
      - rewrite EH, delta_neq by auto. rewrite (SU b a), (SV a b) by assumption. ring. }
    assert (M01 : Rmax (S t 0%nat + S t 1%nat) (1 / 1000000) = S t 0%nat + S t 1%nat) by (apply rmax_left; exact P01).
    assert (M12 : Rmax (S t 1%nat + S t 2%nat) (1 / 1000000) = S t 1%nat + S t 2%nat) by (apply rmax_left; exact P12).
    assert (M20 : Rmax (S t 2%nat + S t 0%nat) (1 / 1000000) = S t 2%nat + S t 0%nat) by (apply rmax_left; exact P20).
    destruct (Q 0%nat 1%nat _ _ (Bij_neg_coeff M 3 (S t) 0%nat) (S t 0%nat + S t 1%nat) eq_refl eq_refl eq_refl ltac:(lia) ltac:(lia) ltac:(lia) P01 L01) as [Q01 Q10].
    destruct (Q 1%nat 2%nat _ _ (Bij_neg_coeff M 3 (S t) 1%nat) (S t 1%nat + S t 2%nat) eq_refl eq_refl eq_refl ltac:(lia) ltac:(lia) ltac:(lia) P12 L12) as [Q12 Q21].
    destruct (Q 0%nat 2%nat _ _ (Bij_neg_coeff M 3 (S t) 2%nat) (S t 2%nat + S t 0%nat) eq_refl eq_refl ltac:(ring) ltac:(lia) ltac:(lia) ltac:(lia) P20 L02) as [Q02 Q20].
    rewrite (Rplus_comm (g 0%nat) (g 2%nat)) in Q02, Q20.
    assert (DH : forall a, (a < 3)%nat -> hat 3 (U t) (V t) G a a = S' a).
    { intros a Ha. rewrite EH by assumption. rewrite D0, D1, delta_eq by assumption. ring. }
    destruct k as [|[|[|k]]]; try lia; destruct l as [|[|[|l]]]; try lia; unfold K3, compute_Bij;
      cbn [Nat.eqb Nat.add Nat.modulo Nat.divmod fst snd Nat.sub]; fold g;
      try (rewrite M01); try (rewrite M12); try (rewrite M20);
      try (rewrite !DH by lia; rewrite D0, D1, delta_eq by lia; unfold row, vsum; ring).
    + rewrite Q01, delta_neq by lia. ring.
    + rewrite Q02, delta_neq by lia. ring.
    + rewrite Q10, delta_neq by lia. rewrite (SU 1%nat 0%nat), (SV 0%nat 1%nat) by lia. ring.
    + rewrite Q12, delta_neq by lia. ring.
    + rewrite Q20, delta_neq by lia. rewrite (SU 2%nat 0%nat), (SV 0%nat 2%nat) by lia. ring.
    + rewrite Q21, delta_neq by lia. rewrite (SU 2%nat 1%nat), (SV 1%nat 2%nat) by lia. ring.
Qed.
End D3.
Section D2.
Hypothesis HF : forall u, decomposes 2 (F u) (U u) (S u) (V u).
Hypothesis HG : mat_rate 2 F t G.
Hypothesis HU : mat_rate 2 U t U'.
Hypothesis HS : vec_rate 2 S t S'.
Hypothesis HV : mat_rate 2 V t V'.
Hypothesis Hg : vec_rate 2 (fun u => dpsi_dsigma M 2 (S u)) t (row 2 (d2psi_dsigma2 M 2 (S t)) S').
Hypothesis HL : left_ok M 2 (S t).
Hypothesis HP : sums_ok 2 (S t).
Hypothesis SA : symmetric 2 (d2psi_dsigma2 M 2 (S t)).

Lemma stiffness2 i j : (i < 2)%nat -> (j < 2)%nat ->
  rate (fun u => first_piola M 2 (U u) (S u) (V u) i j) t
    (vsum 2 (fun r => vsum 2 (fun s =>
       first_piola_derivative keep M 2 (U t) (S t) (V t) (j * 2 + i)%nat (s * 2 + r)%nat * G r s))).
Proof.
  intros Hi Hj.
  assert (OU := proj1 (HF t)). assert (OV := proj1 (proj2 (HF t))).
  eapply rate_eq.
  - unfold first_piola. apply (rate_compose 2 U U' (fun u => dpsi_dsigma M 2 (S u)) (row 2 (d2psi_dsigma2 M 2 (S t)) S') V V' t); assumption.
  - rewrite (vsum_ext 2 (fun r => vsum 2 (fun s =>
       first_piola_derivative keep M 2 (U t) (S t) (V t) (j * 2 + i)%nat (s * 2 + r)%nat * G r s))
      (fun r => vsum 2 (fun s => entry2 (d2psi_dsigma2 M 2 (S t)) (compute_Bij M 2 (S t) 0) (U t) (V t) i j r s * G r s))).
    2:{ intros r Hr. apply vsum_ext. intros s Hs. f_equal.
        apply (fpd2 keep); try assumption. apply Bij_sym. }
    rewrite apply2.
    rewrite <- (unhat 2 (U t) (V t) (dcompose 2 (U t) U' (dpsi_dsigma M 2 (S t)) (row 2 (d2psi_dsigma2 M 2 (S t)) S') (V t) V') i j OU OV Hi Hj).
    unfold uK. apply vsum_ext. intros k Hk. apply vsum_ext. intros l Hl. f_equal. f_equal.
    rewrite hat_dcompose by assumption.
    assert (EH : forall k l, (k < 2)%nat -> (l < 2)%nat -> hat 2 (U t) (V t) G k l
       = gram 2 (U t) U' k l * S t l + delta k l * S' l + S t k * gram 2 (V t) V' l k).
    { intros a b Ha Hb. rewrite (hat_ext 2 (U t) (V t) G (dcompose 2 (U t) U' (S t) S' (V t) V')).
      - apply hat_dcompose; assumption.
      - intros p q Hp Hq. eapply rate_unique; [apply HG; assumption|].
        eapply rate_ext; [|apply rate_compose; eassumption]. intros u. symmetry. apply HF; assumption. }
    assert (SU := gram_skew 2 U U' t (fun u => proj1 (HF u)) HU).
    assert (SV := gram_skew 2 V V' t (fun u => proj1 (proj2 (HF u))) HV).
    assert (L01 := HL 0%nat ltac:(left; split; reflexivity)).
    simpl in L01.
    assert (P01 := HP 0%nat 1%nat ltac:(lia) ltac:(lia) ltac:(lia)).
    assert (D0 : forall a, (a < 2)%nat -> gram 2 (U t) U' a a = 0) by (intros a Ha; specialize (SU a a Ha Ha); lra).
    assert (D1 : forall a, (a < 2)%nat -> gram 2 (V t) V' a a = 0) by (intros a Ha; specialize (SV a a Ha Ha); lra).
    set (g := dpsi_dsigma M 2 (S t)) in *. set (A := d2psi_dsigma2 M 2 (S t)) in *.
    assert (Q : forall a b X Z l D, X = gram 2 (U t) U' a b -> Z = gram 2 (V t) V' b a -> D = S t a + S t b ->
              (a < 2)%nat -> (b < 2)%nat -> a <> b -> 1 / 1000000 <= D -> 2 * (S t a - S t b) * l = g a - g b ->
      (l + (g a + g b) / (D + D)) * hat 2 (U t) (V t) G a b + (l - (g a + g b) / (D + D)) * hat 2 (U t) (V t) G b a = X * g b + g a * Z /\
      (l - (g a + g b) / (D + D)) * hat 2 (U t) (V t) G a b + (l + (g a + g b) / (D + D)) * hat 2 (U t) (V t) G b a = - X * g a + g b * - Z).
    { intros a b X Z l0 D -> -> ED Ha Hb N PD EL.
      apply (pair_block l0 D (g a) (g b) (S t a) (S t b)); [exact EL|exact ED|lra| |].
      - rewrite EH, delta_neq by assumption. ring.
      - rewrite EH, delta_neq by auto. rewrite (SU b a), (SV a b) by assumption. ring. }
    assert (M01 : Rmax (S t 0%nat + S t 1%nat) (1 / 1000000) = S t 0%nat + S t 1%nat) by (apply rmax_left; exact P01).
    destruct (Q 0%nat 1%nat _ _ (Bij_neg_coeff M 2 (S t) 0%nat) (S t 0%nat + S t 1%nat) eq_refl eq_refl eq_refl ltac:(lia) ltac:(lia) ltac:(lia) P01 L01) as [Q01 Q10].
    assert (DH : forall a, (a < 2)%nat -> hat 2 (U t) (V t) G a a = S' a).
    { intros a Ha. rewrite EH by assumption. rewrite D0, D1, delta_eq by assumption. ring. }
    destruct k as [|[|k]]; try lia; destruct l as [|[|l]]; try lia; unfold K2, compute_Bij;
      cbn [Nat.eqb Nat.add Nat.modulo Nat.divmod fst snd Nat.sub]; fold g;
      try (rewrite M01);
      try (rewrite !DH by lia; rewrite D0, D1, delta_eq by lia; unfold row, vsum; ring).
    + rewrite Q01, delta_neq by lia. ring.
    + rewrite Q10, delta_neq by lia. rewrite (SU 1%nat 0%nat), (SV 0%nat 1%nat) by lia. ring.
Qed.
End D2.
End Stiffness.
