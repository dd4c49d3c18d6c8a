(* B-spline values, derivatives, positions of the nodes. *)
From Coq Require Import QArith Qround Qabs List Lia Lqa.
From Verif Require Import KernModel KernSpec KernProofs KernProofs2 KernProofs3 KernProofs4.
Import ListNotations.
Open Scope Q_scope.

Inductive bkernel := B1 | B2 | B3.
Definition kt_of (b : bkernel) : kernel := match b with B1 => Linear | B2 => Quadratic | B3 => Cubic end.
Definition phi_of (b : bkernel) : Q -> Q := match b with B1 => bspline1 | B2 => bspline2 | B3 => bspline3 end.

Lemma phi_eq : forall b u v, u == v -> phi_of b u == phi_of b v.
Proof.
  intros b u v E. assert (A : Qabs u == Qabs v) by (rewrite E; reflexivity).
  destruct b; cbn [phi_of]; unfold bspline1, bspline2, bspline3; repeat qcase; try (exfalso; lra); rewrite ?A, ?E; reflexivity.
Qed.

Lemma phi_far : forall b u, radius (kt_of b) <= Qabs u -> phi_of b u == 0.
Proof.
  intros b u H. destruct b; cbn [phi_of kt_of radius] in *; unfold bspline1, bspline2, bspline3;
    repeat qcase; try (exfalso; lra); try reflexivity.
  - assert (A : Qabs u == 1) by lra. rewrite A. reflexivity.
  - assert (A : Qabs u == 3#2) by lra. rewrite A. reflexivity.
  - assert (A : Qabs u == 2) by lra. rewrite A. reflexivity.
Qed.

Lemma closed_phi : forall b d n, degQ (kt_of b) <= d -> d < degQ (kt_of b) + 1 -> (n < width (kt_of b))%nat ->
  nth n (closed (kt_of b) d 0) 0 == phi_of b (d - inject_Z (Z.of_nat n)).
Proof.
  intros b d n L U N.
  destruct b; cbn [kt_of degQ width closed phi_of] in *.
  - unfold bspline1.
    destruct n as [|[|n]]; [| |lia]; cbn [nth]; inz; unfold inject_Z;
      match goal with |- context[Qabs ?u] => destruct (abs_cases u) as [[H A]|[H A]] end;
      qcase; try (exfalso; lra); lra.
  - unfold bspline2.
    destruct n as [|[|[|n]]]; [| | |lia]; cbn [nth]; inz; unfold inject_Z;
      match goal with |- context[Qabs ?u] => destruct (abs_cases u) as [[H A]|[H A]] end;
      repeat qcase; try (exfalso; lra); rewrite ?A; try ring.
    all: try (assert (D : d == 1#2) by lra; rewrite D; reflexivity).
  - unfold bspline3.
    destruct n as [|[|[|[|n]]]]; [| | | |lia]; cbn [nth]; inz; unfold inject_Z;
      match goal with |- context[Qabs ?u] => destruct (abs_cases u) as [[H A]|[H A]] end;
      repeat qcase; try (exfalso; lra); rewrite ?A; try ring.
    all: try (assert (D : d == 1) by lra; rewrite D; reflexivity).
Qed.

Section S.
Variable sq : Q -> Q.
Hypothesis R : root_like sq.

Lemma row_phi : forall b x n, (n < width (kt_of b))%nat ->
  nth n (w0s (row_of sq (kt_of b) x)) 0 == phi_of b (x - inject_Z (base_node (lerp_degree (kt_of b)) x + Z.of_nat n)).
Proof.
  intros b x n N. rewrite (nth_F2 _ _ (closed_ok sq R (kt_of b) x)).
  pose proof (off0_range (kt_of b) x) as [L U].
  assert (Z0 : root_of sq (kt_of b) (off0 (kt_of b) x) = 0) by (destruct b; reflexivity).
  rewrite Z0, (closed_phi b _ n L U N). apply phi_eq. unfold off0. rewrite inject_Z_plus. ring.
Qed.

Lemma far_phi : forall b x z,
  (z < base_node (lerp_degree (kt_of b)) x \/ base_node (lerp_degree (kt_of b)) x + Z.of_nat (width (kt_of b)) <= z)%Z ->
  phi_of b (x - inject_Z z) == 0.
Proof.
  intros b x z H. apply phi_far.
  pose proof (off0_range (kt_of b) x) as [L U]. unfold off0 in *.
  set (B := base_node (lerp_degree (kt_of b)) x) in *.
  destruct H as [H|H].
  - assert (K : inject_Z z <= inject_Z B - 1).
    { change 1 with (inject_Z 1). unfold Qminus. rewrite <- inject_Z_opp, <- inject_Z_plus, <- Zle_Qle. lia. }
    rewrite Qabs_pos; destruct b; cbn [kt_of radius degQ] in *; lra.
  - assert (K : inject_Z B + inject_Z (Z.of_nat (width (kt_of b))) <= inject_Z z).
    { rewrite <- inject_Z_plus, <- Zle_Qle. exact H. }
    destruct b; cbn [kt_of radius degQ width] in *; revert K; inz; unfold inject_Z at 2; intros K; rewrite Qabs_neg; lra.
Qed.

Definition cubic_c (b : bkernel) (n : nat) : Q :=
  match b with B3 => nth n [-1#6; 1#2; -1#2; 1#6] 0 | _ => 0 end.

Lemma row_taylor : forall b x h n, (n < width (kt_of b))%nat ->
  base_node (lerp_degree (kt_of b)) (x + h) = base_node (lerp_degree (kt_of b)) x ->
  nth n (w0s (row_of sq (kt_of b) (x + h))) 0 ==
    nth n (w0s (row_of sq (kt_of b) x)) 0 + h * nth n (w1s (row_of sq (kt_of b) x)) 0
    + (1#2) * h * h * nth n (w2s (row_of sq (kt_of b) x)) 0 + cubic_c b n * h * h * h /\
  nth n (w1s (row_of sq (kt_of b) (x + h))) 0 ==
    nth n (w1s (row_of sq (kt_of b) x)) 0 + h * nth n (w2s (row_of sq (kt_of b) x)) 0
    + 3 * cubic_c b n * h * h.
Proof.
  intros b x h n N E. destruct b; cbn [kt_of width lerp_degree] in *;
    cbn [row_of linear_row quadratic_row cubic_row w0s w1s w2s cubic_c]; rewrite E.
  - generalize (inject_Z (base_node 0 x)). intros B. destruct n as [|[|n]]; [| |lia]; cbn [nth]; split; field.
  - generalize (inject_Z (base_node 1 x)). intros B. destruct n as [|[|[|n]]]; [| | |lia]; cbn [nth]; split; field.
  - generalize (inject_Z (base_node 2 x)). intros B. destruct n as [|[|[|[|n]]]]; [| | | |lia]; cbn [nth]; split; field.
Qed.

Lemma arena_phi : forall b X o, inside (map w0s (pads (arena_collocated sq (kt_of b) X))) o ->
  weight (arena_collocated sq (kt_of b) X) o == tensor (phi_of b) X (coord (arena_collocated sq (kt_of b) X) o).
Proof.
  intros b X o H. rewrite weight_pr. unfold coord. cbn [arena_collocated pads iCorner] in *.
  revert o H. induction X as [|x X IH]; intros o H; cbn [map combine] in *.
  - reflexivity.
  - inversion H as [|? i ? o' Hi Ho]; subst. cbn [combine map tensor pr fst snd].
    rewrite row_length in Hi. rewrite IH by exact Ho. apply Qmult_comp; [|reflexivity].
    rewrite (row_phi b _ i Hi). apply phi_eq.
    pose proof (off0_range (kt_of b) x) as [L U]. unfold off0 in *.
    rewrite (base_local (lerp_degree (kt_of b)) (x - inject_Z (base_node (lerp_degree (kt_of b)) x))).
    + rewrite !inject_Z_plus. change (inject_Z 0) with 0. ring.
    + destruct b; cbn [kt_of degQ lerp_degree] in *; inz; unfold inject_Z at 1; lra.
    + destruct b; cbn [kt_of degQ lerp_degree] in *; inz; unfold inject_Z at 2; lra.
Qed.
End S.

(* positions of the nodes *)
Lemma dot_F2 : forall a x y, Forall2 Qeq x y -> dot a x == dot a y.
Proof.
  intros a x y H. revert a. induction H; intros a; destruct a; cbn [dot]; try reflexivity.
  rewrite H, IHForall2. reflexivity.
Qed.
Lemma affine_F2 : forall c a x y, Forall2 Qeq x y -> affine c a x == affine c a y.
Proof. intros c a x y H. unfold affine. rewrite (dot_F2 _ _ _ H). reflexivity. Qed.
Lemma within_F2 : forall r p q X, Forall2 Qeq p q -> within r p X -> within r q X.
Proof.
  intros r p q X H. revert X. induction H; intros X W; inversion W; subst; constructor.
  - rewrite <- H. assumption.
  - apply IHForall2. assumption.
Qed.

Lemma colloc_nodes : forall corner o,
  Forall2 Qeq (nodes (map inject_Z corner) o)
    (node_position (map (fun ci => (fst ci + Z.of_nat (snd ci))%Z) (combine corner o))).
Proof.
  induction corner as [|c corner IH]; intros [|i o]; cbn [map nodes combine node_position]; try constructor.
  - cbn [fst snd]. rewrite inject_Z_plus. reflexivity.
  - apply IH.
Qed.

Lemma delta_shift : forall n s f p, length p = n ->
  Forall2 Qeq (map (fun pd => fst pd + snd pd) (combine p (map (fun d => if Nat.eqb d (f + s) then -1#2 else 0) (seq s n))))
     (lower_half f p).
Proof.
  induction n as [|n IH]; intros s f [|x p] L; try discriminate; cbn [length] in L.
  - destruct f; constructor.
  - cbn [seq map combine fst snd lower_half]. destruct f as [|f].
    + rewrite Nat.add_0_l, Nat.eqb_refl. constructor; [ring|].
      assert (E : map (fun d => if Nat.eqb d s then -1#2 else 0) (seq (S s) n) = map (fun _ => 0) (seq (S s) n)).
      { apply map_ext_in. intros d Hd. apply in_seq in Hd. destruct (Nat.eqb_spec d s); [lia|reflexivity]. }
      rewrite E. clear E IH. assert (L' : length p = n) by congruence. clear L. revert s p L'.
      induction n as [|n IH]; intros s [|y p] L; try discriminate; cbn; constructor; [cbn; ring|].
      apply (IH (S s)). cbn in L. congruence.
    + destruct (Nat.eqb_spec s (S f + s)); [lia|]. constructor; [ring|].
      replace (S f + s)%nat with (f + S s)%nat by lia. apply IH. congruence.
Qed.

Lemma F2_trans : forall a b c, Forall2 Qeq a b -> Forall2 Qeq b c -> Forall2 Qeq a c.
Proof.
  intros a b c H. revert c. induction H; intros c K; inversion K; subst; constructor.
  - rewrite H. assumption.
  - apply IHForall2. assumption.
Qed.

Lemma stag_nodes : forall kt X f o, (f < length X)%nat -> length o = length X ->
  forall sq, Forall2 Qeq (nodes (bases_of kt X (deltas X f)) o) (face_position f (coord (arena_staggered sq kt X f) o)).
Proof.
  intros kt X f o Hf Lo sq. unfold face_position.
  set (z := coord (arena_staggered sq kt X f) o).
  assert (Lz : length (node_position z) = length X).
  { unfold z, node_position, coord. cbn [arena_staggered iCorner].
    rewrite !map_length, combine_length, map_length, combine_length, map_length, seq_length. lia. }
  pose proof (delta_shift (length X) 0 f (node_position z) Lz) as D.
  assert (E : map (fun d => if Nat.eqb d (f + 0) then -1#2 else 0) (seq 0 (length X)) = deltas X f).
  { unfold deltas, face_delta. apply map_ext. intros d. rewrite Nat.add_0_r, Nat.mod_small by lia. reflexivity. }
  rewrite E in D. clear E.
  refine (F2_trans _ _ _ _ D). clear D Lz.
  unfold z, coord. cbn [arena_staggered iCorner]. fold (deltas X f). unfold bases_of, nodes, node_position.
  clear z Hf. revert o Lo. generalize (deltas X f) as ds.
  induction X as [|x X IH]; intros [|d ds] [|i o] Lo; cbn [combine map fst snd]; try constructor; try discriminate.
  - cbn [fst snd]. rewrite inject_Z_plus. ring.
  - apply IH. cbn in Lo. congruence.
Qed.
