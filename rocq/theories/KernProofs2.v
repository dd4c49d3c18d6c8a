(* Facts about one row of weights. *)
From Coq Require Import QArith Qround Qabs List Lia Lqa.
From Verif Require Import KernModel KernSpec KernProofs.
Import ListNotations.
Open Scope Q_scope.

Lemma qsum_F2 : forall a b, Forall2 Qeq a b -> qsum a == qsum b.
Proof. induction 1; cbn; [reflexivity|]. unfold qsum in *. cbn. rewrite H, IHForall2. reflexivity. Qed.

Lemma nth_F2 : forall a b, Forall2 Qeq a b -> forall i, nth i a 0 == nth i b 0.
Proof.
  induction 1; intros i; destruct i; cbn; auto; reflexivity.
Qed.

Lemma F2_len : forall (a b : list Q), Forall2 Qeq a b -> length a = length b.
Proof. induction 1; cbn; congruence. Qed.

Definition moment (r : list Q) (b : Q) : Q :=
  qsum (map (fun i => nth i r 0 * (b + inject_Z (Z.of_nat i))) (seq 0 (length r))).

Lemma qsum_ext : forall A (f g : A -> Q) l, (forall x, In x l -> f x == g x) -> qsum (map f l) == qsum (map g l).
Proof.
  induction l; intros H; [reflexivity|].
  cbn. rewrite (H a) by (left; reflexivity). unfold qsum in *. rewrite IHl; [reflexivity|].
  intros; apply H; right; assumption.
Qed.

Lemma moment_F2 : forall a b c, Forall2 Qeq a b -> moment a c == moment b c.
Proof.
  intros a b c H. unfold moment. rewrite (F2_len _ _ H).
  apply qsum_ext. intros i _. rewrite (nth_F2 _ _ H). reflexivity.
Qed.

Ltac inz := repeat match goal with
  |- context[inject_Z (Z.of_nat ?n)] => let z := eval compute in (Z.of_nat n) in
     change (Z.of_nat n) with z end.

Section Facts.
Variable sq : Q -> Q.
Hypothesis R : root_like sq.

Definition degQ (kt : kernel) : Q :=
  match kt with Linear | Delta2 => 0 | Quadratic | Delta3 => 1#2 | Cubic | Delta4 => 1 end.

Lemma off0_range : forall kt x, degQ kt <= off0 kt x /\ off0 kt x < degQ kt + 1.
Proof.
  intros kt x. unfold off0. pose proof (base_range (lerp_degree kt) x) as [L U].
  destruct kt; cbn [degQ lerp_degree] in *; inz;
    repeat match goal with H : context[inject_Z (Z.of_nat ?n)] |- _ =>
      let z := eval compute in (Z.of_nat n) in change (Z.of_nat n) with z in H end;
    change (inject_Z 0) with 0 in *; change (inject_Z 1) with 1 in *; change (inject_Z 2) with 2 in *; lra.
Qed.

Lemma row_length : forall kt x, length (w0s (row_of sq kt x)) = width kt.
Proof. intros kt x. destruct kt; reflexivity. Qed.

Lemma row_sum : forall kt x, qsum (w0s (row_of sq kt x)) == 1.
Proof.
  intros kt x. rewrite (qsum_F2 _ _ (closed_ok sq R kt x)).
  set (d := off0 kt x). set (s := root_of sq kt d). clearbody s d.
  destruct kt; cbn [closed qsum fold_right]; ring.
Qed.

Lemma row_moment : forall kt x b, moment (w0s (row_of sq kt x)) b == b + off0 kt x.
Proof.
  intros kt x b. rewrite (moment_F2 _ _ _ (closed_ok sq R kt x)).
  set (d := off0 kt x). set (s := root_of sq kt d). clearbody s d.
  destruct kt; unfold moment; cbn [closed qsum fold_right length seq map nth]; inz;
    unfold inject_Z; ring.
Qed.

Lemma row_nonneg : forall kt x, Forall (fun w => 0 <= w) (w0s (row_of sq kt x)).
Proof.
  intros kt x. pose proof (closed_ok sq R kt x) as C. pose proof (off0_range kt x) as [L U].
  assert (G : Forall (fun w => 0 <= w) (closed kt (off0 kt x) (root_of sq kt (off0 kt x)))).
  { set (d := off0 kt x) in *.
    assert (S0 : 0 <= root_of sq kt d).
    { destruct kt; cbn [root_of]; try lra; apply (root_nonneg _ R). }
    destruct kt; cbn [closed degQ] in *.
    - clear C; repeat constructor; lra.
    - clear C; repeat constructor; nra.
    - clear C. repeat constructor; try nra.
      + apply Qmult_le_0_compat; [|lra]. apply Qmult_le_0_compat; [|lra]. nra.
      + set (e := d - 1). assert (E0 : 0 <= e) by (unfold e; lra). assert (E1 : e < 1) by (unfold e; lra).
        clearbody e. assert (e * e <= 1) by nra. assert (0 <= e * e) by nra. assert (0 <= e * e * e) by nra. nra.
      + set (e := 2 - d). assert (E0 : 0 <= e) by (unfold e; lra). assert (E1 : e <= 1) by (unfold e; lra).
        clearbody e. assert (e * e <= 1) by nra. assert (0 <= e * e) by nra. assert (0 <= e * e * e) by nra. nra.
      + apply Qmult_le_0_compat; [|lra]. apply Qmult_le_0_compat; [|lra]. nra.
    - clear C; repeat constructor; lra.
    - assert (S1 : root_of sq Delta3 d <= 5 - 3 * d).
      { cbn [root_of]. apply (root_below _ R); nra. }
      assert (S2 : root_of sq Delta3 d <= 5 - 3 * (2 - d)).
      { cbn [root_of]. apply (root_below _ R); nra. }
      clear C. repeat constructor; lra.
    - assert (S1 : root_of sq Delta4 d <= 5 - 2 * d).
      { cbn [root_of]. apply (root_below _ R); nra. }
      assert (S2 : root_of sq Delta4 d <= 2 * d - 1).
      { cbn [root_of]. apply (root_below _ R); nra. }
      clear C. repeat constructor; lra. }
  revert G. induction C; intros G; constructor; inversion G; subst; auto. rewrite H. assumption.
Qed.

(* derivative rows *)
Definition has_deriv (kt : kernel) : Prop := kt = Linear \/ kt = Quadratic \/ kt = Cubic.

Lemma drow_length : forall kt x, has_deriv kt -> length (w1s (row_of sq kt x)) = width kt.
Proof. intros kt x [->|[->| ->]]; reflexivity. Qed.

Lemma drow_sum : forall kt x, has_deriv kt -> qsum (w1s (row_of sq kt x)) == 0.
Proof.
  intros kt x [->|[->| ->]]; cbn [row_of w1s linear_row quadratic_row cubic_row qsum fold_right].
  - ring.
  - generalize (x - inject_Z (base_node 1 x)); intros; ring.
  - generalize (x - inject_Z (base_node 2 x)); intros; ring.
Qed.

Lemma drow_moment : forall kt x b, has_deriv kt -> moment (w1s (row_of sq kt x)) b == 1.
Proof.
  intros kt x b [->|[->| ->]]; unfold moment;
    cbn [row_of w1s linear_row quadratic_row cubic_row qsum fold_right length seq map nth]; inz.
  - unfold inject_Z. ring.
  - generalize (x - inject_Z (base_node 1 x)); intros. unfold inject_Z. ring.
  - generalize (x - inject_Z (base_node 2 x)); intros. unfold inject_Z. ring.
Qed.
End Facts.
