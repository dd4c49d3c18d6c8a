(* One-dimensional facts about the weights, then tensor-product sums. *)
From Coq Require Import QArith Qround Qabs List Lia Lqa.
From Verif Require Import KernModel KernSpec.
Import ListNotations.
Open Scope Q_scope.

Lemma floor_zero : forall x, 0 <= x -> x < 1 -> Qfloor x = 0%Z.
Proof.
  intros x H0 H1.
  assert (A : (0 <= Qfloor x)%Z).
  { change 0%Z with (Qfloor 0). apply Qfloor_resp_le. exact H0. }
  assert (B : (Qfloor x < 1)%Z).
  { rewrite Zlt_Qlt. eapply Qle_lt_trans; [apply Qfloor_le|exact H1]. }
  lia.
Qed.

(* position inside the stencil *)
Lemma base_range : forall k x,
  (1#2) * inject_Z (Z.of_nat k) <= x - inject_Z (base_node k x) /\
  x - inject_Z (base_node k x) < (1#2) * inject_Z (Z.of_nat k) + 1.
Proof.
  intros k x. unfold base_node, lower_trunc.
  set (o := (1#2) * inject_Z (Z.of_nat k)).
  pose proof (Qfloor_le (x - o)). pose proof (Qlt_floor (x - o)).
  rewrite inject_Z_plus in H0. change (inject_Z 1) with 1 in H0. split; lra.
Qed.

Lemma base_local : forall k x,
  (1#2) * inject_Z (Z.of_nat k) <= x -> x < (1#2) * inject_Z (Z.of_nat k) + 1 -> base_node k x = 0%Z.
Proof.
  intros k x A B. unfold base_node, lower_trunc. apply floor_zero; lra.
Qed.

Lemma qle_t : forall a b, Qle_bool a b = true -> a <= b.
Proof. intros. apply Qle_bool_iff. assumption. Qed.
Lemma qle_f : forall a b, Qle_bool a b = false -> b < a.
Proof.
  intros a b H. destruct (Qlt_le_dec b a) as [L|L]; [exact L|].
  apply Qle_bool_iff in L. congruence.
Qed.

Lemma abs_cases : forall u, (0 <= u /\ Qabs u == u) \/ (u < 0 /\ Qabs u == - u).
Proof.
  intros u. destruct (Qlt_le_dec u 0) as [L|L].
  - right. split; [exact L|]. apply Qabs_neg. lra.
  - left. split; [exact L|]. apply Qabs_pos. lra.
Qed.

Ltac qcase :=
  match goal with
  | |- context[Qle_bool ?a ?b] =>
      let E := fresh "E" in destruct (Qle_bool a b) eqn:E;
      [apply qle_t in E|apply qle_f in E]
  end.
Ltac qabs u :=
  let H := fresh "H" in let A := fresh "A" in
  destruct (abs_cases u) as [[H A]|[H A]].

Lemma abs_compat_if : forall (u : Q), Qabs u == Qabs u. Proof. intros; reflexivity. Qed.

Section Rows.
Variable sq : Q -> Q.
Hypothesis R : root_like sq.

(* the weights as a function of the distance to a node *)
Definition spline (kt : kernel) (u : Q) : Q :=
  match kt with
  | Linear => bspline1 u | Quadratic => bspline2 u | Cubic => bspline3 u
  | Delta2 => delta2_weight (Qabs u) | Delta3 => delta3_weight sq (Qabs u)
  | Delta4 => delta4_weight sq (Qabs u) end.

Definition off0 (kt : kernel) (x : Q) : Q := x - inject_Z (base_node (lerp_degree kt) x).

Lemma sq_eq : forall a b, a == b -> sq a == sq b.
Proof. apply (root_eq _ R). Qed.

Lemma delta2_eq : forall a b, a == b -> delta2_weight a == delta2_weight b.
Proof.
  intros a b E. unfold delta2_weight, qlt. repeat qcase; cbn; lra.
Qed.
Lemma delta3_eq : forall a b, a == b -> delta3_weight sq a == delta3_weight sq b.
Proof.
  intros a b E. unfold delta3_weight, qlt, qle.
  assert (A : sq (-(3) * a * a + 1) == sq (-(3) * b * b + 1)) by (apply sq_eq; rewrite E; reflexivity).
  assert (B : sq (-(3) * (1 - a) * (1 - a) + 1) == sq (-(3) * (1 - b) * (1 - b) + 1))
    by (apply sq_eq; rewrite E; reflexivity).
  repeat qcase; cbn [negb andb]; try (exfalso; lra); first [rewrite A; reflexivity|rewrite A, E; reflexivity|rewrite B, E; reflexivity|reflexivity].
Qed.
Lemma delta4_eq : forall a b, a == b -> delta4_weight sq a == delta4_weight sq b.
Proof.
  intros a b E. unfold delta4_weight, qlt, qle.
  assert (A : sq (1 + 4 * a - 4 * a * a) == sq (1 + 4 * b - 4 * b * b)) by (apply sq_eq; rewrite E; reflexivity).
  assert (B : sq (-(7) + 12 * a - 4 * a * a) == sq (-(7) + 12 * b - 4 * b * b))
    by (apply sq_eq; rewrite E; reflexivity).
  repeat qcase; cbn [negb andb]; try (exfalso; lra); first [rewrite A; reflexivity|rewrite A, E; reflexivity|rewrite B, E; reflexivity|reflexivity].
Qed.

(* the rows in closed form, d the offset from the base node *)
Definition closed (kt : kernel) (d s : Q) : list Q :=
  match kt with
  | Linear | Delta2 => [1 - d; d]
  | Quadratic => [ (1#2) * ((3#2) - d) * ((3#2) - d); (3#4) - (d - 1) * (d - 1); (1#2) * (d - (1#2)) * (d - (1#2)) ]
  | Cubic => [ (1#6) * (2 - d) * (2 - d) * (2 - d);
               ((1#2) * (d - 1) - 1) * (d - 1) * (d - 1) + (2#3);
               ((1#2) * (2 - d) - 1) * (2 - d) * (2 - d) + (2#3);
               (1#6) * (d - 1) * (d - 1) * (d - 1) ]
  | Delta3 => [ (1#6) * (5 - 3 * d - s); (1#3) * (1 + s); (1#6) * (5 - 3 * (2 - d) - s) ]
  | Delta4 => [ (1#8) * (5 - 2 * d - s); (1#8) * (5 - 2 * d + s); (1#8) * (2 * d - 1 + s); (1#8) * (2 * d - 1 - s) ]
  end.
Definition root_of (kt : kernel) (d : Q) : Q :=
  match kt with
  | Delta3 => sq (-(3) * (1 - d) * (1 - d) + 1)
  | Delta4 => sq (-(7) + 12 * d - 4 * d * d)
  | _ => 0 end.

Lemma closed_ok : forall kt x,
  Forall2 Qeq (w0s (row_of sq kt x)) (closed kt (off0 kt x) (root_of kt (off0 kt x))).
Proof.
  intros kt x. pose proof (base_range (lerp_degree kt) x) as [L U].
  destruct kt; unfold row_of, off0 in *; cbn [lerp_degree] in *.
  - unfold linear_row. cbn. repeat constructor; reflexivity.
  - unfold quadratic_row; cbn [w0s closed]. repeat constructor; ring.
  - unfold cubic_row; cbn [w0s closed]. repeat constructor; field.
  - set (d := x - inject_Z (base_node 0 x)) in *. cbn [Z.of_nat] in L, U.
    change (inject_Z 0) with 0 in *.
    unfold delta_row; cbn [w0s seq map closed].
    constructor; [|constructor; [|constructor]].
    + rewrite (delta2_eq _ d).
      * unfold delta2_weight, qlt. qcase; cbn; lra.
      * rewrite Qabs_pos; unfold d; change (inject_Z (Z.of_nat 0)) with 0; [ring|]. fold d. unfold d in *; lra.
    + rewrite (delta2_eq _ (1 - d)).
      * unfold delta2_weight, qlt. qcase; cbn; lra.
      * rewrite Qabs_neg; unfold d; change (inject_Z (Z.of_nat 1)) with 1; [ring|]. unfold d in *; lra.
  - set (d := x - inject_Z (base_node 1 x)) in *. cbn [Z.of_nat] in L, U.
    change (inject_Z (Z.pos (Pos.of_succ_nat 0))) with 1 in *.
    pose proof (root_quarter _ R) as RQ.
    unfold delta_row; cbn [w0s seq map closed root_of].
    constructor; [|constructor; [|constructor; [|constructor]]].
    + rewrite (delta3_eq _ d).
      2:{ rewrite Qabs_pos; unfold d; change (inject_Z (Z.of_nat 0)) with 0; [ring|]. unfold d in *; lra. }
      unfold delta3_weight, qlt, qle. qcase.
      * assert (D : d == 1#2) by lra.
        rewrite (sq_eq _ (1#4)) by (rewrite D; reflexivity).
        rewrite (sq_eq (-(3) * (1 - d) * (1 - d) + 1) (1#4)) by (rewrite D; reflexivity).
        rewrite RQ, D. reflexivity.
      * repeat qcase; cbn [negb andb]; try (exfalso; lra). field.
    + destruct (Qlt_le_dec d 1) as [D|D].
      * rewrite (delta3_eq _ (1 - d)).
        2:{ rewrite Qabs_neg; unfold d; change (inject_Z (Z.of_nat 1)) with 1; [ring|]. unfold d in *; lra. }
        unfold delta3_weight, qlt, qle. qcase; [|lra]. field.
      * rewrite (delta3_eq _ (d - 1)).
        2:{ rewrite Qabs_pos; unfold d; change (inject_Z (Z.of_nat 1)) with 1; [ring|]. unfold d in *; lra. }
        unfold delta3_weight, qlt, qle. qcase; [|lra].
        rewrite (sq_eq _ (-(3) * (1 - d) * (1 - d) + 1)) by ring. field.
    + rewrite (delta3_eq _ (2 - d)).
      2:{ rewrite Qabs_neg; unfold d; change (inject_Z (Z.of_nat 2)) with 2; [ring|]. unfold d in *; lra. }
      unfold delta3_weight, qlt, qle. repeat qcase; cbn [negb andb]; try (exfalso; lra).
      { assert (D : d == 1#2) by lra.
        rewrite (sq_eq _ (1#4)) by (rewrite D; reflexivity). rewrite RQ, D. reflexivity. }
      rewrite (sq_eq (-(3) * (1 - (2 - d)) * (1 - (2 - d)) + 1) (-(3) * (1 - d) * (1 - d) + 1)) by ring.
      field.
  - set (d := x - inject_Z (base_node 2 x)) in *. cbn [Z.of_nat] in L, U.
    change (inject_Z (Z.pos (Pos.of_succ_nat 1))) with 2 in *.
    pose proof (root_1 _ R) as R1.
    unfold delta_row; cbn [w0s seq map closed root_of].
    constructor; [|constructor; [|constructor; [|constructor; [|constructor]]]].
    + rewrite (delta4_eq _ d).
      2:{ rewrite Qabs_pos; unfold d; change (inject_Z (Z.of_nat 0)) with 0; [ring|]. unfold d in *; lra. }
      unfold delta4_weight, qlt, qle. qcase.
      * assert (D : d == 1) by lra.
        rewrite (sq_eq _ 1) by (rewrite D; reflexivity).
        rewrite (sq_eq (-(7) + 12 * d - 4 * d * d) 1) by (rewrite D; reflexivity).
        rewrite R1, D. reflexivity.
      * repeat qcase; cbn [negb andb]; try (exfalso; lra). field.
    + rewrite (delta4_eq _ (d - 1)).
      2:{ rewrite Qabs_pos; unfold d; change (inject_Z (Z.of_nat 1)) with 1; [ring|]. unfold d in *; lra. }
      unfold delta4_weight, qlt, qle. qcase; [|lra].
      rewrite (sq_eq (1 + 4 * (d - 1) - 4 * (d - 1) * (d - 1)) (-(7) + 12 * d - 4 * d * d)) by ring. field.
    + rewrite (delta4_eq _ (2 - d)).
      2:{ rewrite Qabs_neg; unfold d; change (inject_Z (Z.of_nat 2)) with 2; [ring|]. unfold d in *; lra. }
      unfold delta4_weight, qlt, qle. qcase; [|lra].
      rewrite (sq_eq (1 + 4 * (2 - d) - 4 * (2 - d) * (2 - d)) (-(7) + 12 * d - 4 * d * d)) by ring. field.
    + rewrite (delta4_eq _ (3 - d)).
      2:{ rewrite Qabs_neg; unfold d; change (inject_Z (Z.of_nat 3)) with 3; [ring|]. unfold d in *; lra. }
      unfold delta4_weight, qlt, qle. repeat qcase; cbn [negb andb]; try (exfalso; lra).
      { assert (D : d == 1) by lra.
        rewrite (sq_eq _ 1) by (rewrite D; reflexivity). rewrite R1, D. reflexivity. }
      rewrite (sq_eq (-(7) + 12 * (3 - d) - 4 * (3 - d) * (3 - d)) (-(7) + 12 * d - 4 * d * d)) by ring.
      field.
Qed.
End Rows.
