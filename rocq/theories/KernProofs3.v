(* Tensor-product sums over a stencil. *)
From Coq Require Import QArith Qround Qabs List Lia Lqa.
From Verif Require Import KernModel KernSpec KernProofs KernProofs2.
Import ListNotations.
Open Scope Q_scope.

Fixpoint tsum (rows : list (list Q)) (F : list nat -> Q) : Q :=
  match rows with
  | [] => F []
  | r :: rs => qsum (map (fun i => nth i r 0 * tsum rs (fun o => F (i :: o))) (seq 0 (length r)))
  end.

(* an offset inside the stencil *)
Definition inside (rows : list (list Q)) (o : list nat) : Prop :=
  Forall2 (fun r i => (i < length r)%nat) rows o.

Lemma tsum_ext : forall rows F G, (forall o, inside rows o -> F o == G o) -> tsum rows F == tsum rows G.
Proof.
  induction rows as [|r rs IH]; intros F G H; cbn.
  - apply H. constructor.
  - apply qsum_ext. intros i Hi. apply in_seq in Hi.
    rewrite (IH _ (fun o => G (i :: o))); [reflexivity|].
    intros o Ho. apply H. constructor; [lia|exact Ho].
Qed.

Lemma tsum_rows : forall rows rows' F, Forall2 (Forall2 Qeq) rows rows' -> tsum rows F == tsum rows' F.
Proof.
  intros rows rows' F H. revert F. induction H as [|r r' rs rs' E H IH]; intros F; cbn; [reflexivity|].
  rewrite (F2_len _ _ E). apply qsum_ext. intros i _. rewrite (nth_F2 _ _ E), IH. reflexivity.
Qed.

(* product of the weights *)
Fixpoint pr (rows : list (list Q)) (o : list nat) : Q :=
  match rows, o with r :: rs, i :: o' => nth i r 0 * pr rs o' | _, _ => 1 end.

Lemma qsum_app : forall a b, qsum (a ++ b) == qsum a + qsum b.
Proof.
  intros a b. unfold qsum. induction a; cbn [app fold_right]; [ring|]. rewrite IHa. ring.
Qed.
Lemma qsum_scale : forall A (f : A -> Q) c l, qsum (map (fun x => c * f x) l) == c * qsum (map f l).
Proof. intros. unfold qsum. induction l; cbn [map fold_right]; [ring|]. rewrite IHl. ring. Qed.
Lemma qsum_scale_r : forall A (f : A -> Q) c l, qsum (map (fun x => f x * c) l) == qsum (map f l) * c.
Proof. intros. unfold qsum. induction l; cbn [map fold_right]; [ring|]. rewrite IHl. ring. Qed.
Lemma qsum_plus : forall A (f g : A -> Q) l, qsum (map (fun x => f x + g x) l) == qsum (map f l) + qsum (map g l).
Proof. intros. unfold qsum. induction l; cbn [map fold_right]; [ring|]. rewrite IHl. ring. Qed.

Lemma flat_sum : forall rows w F, Forall (fun r => length r = w) rows ->
  qsum (map (fun o => pr rows o * F o) (ndrange (length rows) w)) == tsum rows F.
Proof.
  induction rows as [|r rs IH]; intros w F H; cbn [length ndrange tsum].
  - cbn [map qsum fold_right pr]. ring.
  - inversion H as [|? ? Hr Hrs]; subst. clear H.
    generalize (seq 0 (length r)) as l. induction l as [|i l IHl]; cbn [flat_map map]; [reflexivity|].
    rewrite map_app, qsum_app, IHl. cbn [qsum fold_right]. apply Qplus_comp; [|reflexivity].
    rewrite map_map. cbn [pr].
    rewrite <- (IH (length r) (fun o => F (i :: o)) Hrs).
    rewrite <- qsum_scale. apply qsum_ext. intros o _. ring.
Qed.

Lemma fold_sum : forall A (f : A -> Q) l acc,
  fold_left (fun ret o => ret + f o) l acc == acc + qsum (map f l).
Proof.
  unfold qsum. induction l; intros acc; cbn [map fold_left fold_right]; [ring|]. rewrite IHl. ring.
Qed.

Lemma fold_prod_eq : forall B (f : B -> Q) l a b, a == b ->
  fold_left (fun ret x => ret * f x) l a == fold_left (fun ret x => ret * f x) l b.
Proof. induction l; intros x y E; cbn; [exact E|]. apply IHl. rewrite E. reflexivity. Qed.

Lemma weight_pr : forall a o, weight a o == pr (map w0s (pads a)) o.
Proof.
  intros a o. unfold weight.
  cut (forall rows acc o, fold_left (fun ret ri => ret * nth (snd ri) (w0s (fst ri)) 0) (combine rows o) acc
       == acc * pr (map w0s rows) o).
  { intros H. rewrite H. ring. }
  induction rows as [|r rs IH]; intros acc o'; destruct o' as [|i o']; cbn [combine fold_left map pr]; try ring.
  rewrite IH. cbn [fst snd]. ring.
Qed.

(* the rows of weightGradient<I> *)
Fixpoint grows (i s : nat) (rows : list row) : list (list Q) :=
  match rows with
  | [] => []
  | r :: rs => (if Nat.eqb i s then w1s r else w0s r) :: grows i (S s) rs
  end.

Lemma gradient_pr : forall a i o, weightGradient a i o == pr (grows i 0 (pads a)) o.
Proof.
  intros a i o. unfold weightGradient.
  cut (forall rows s acc o, fold_left (fun ret dri =>
      ret * (if Nat.eqb i (fst dri)
             then nth (snd (snd dri)) (w1s (fst (snd dri))) 0
             else nth (snd (snd dri)) (w0s (fst (snd dri))) 0))
    (combine (seq s (length rows)) (combine rows o)) acc == acc * pr (grows i s rows) o).
  { intros H. rewrite H. ring. }
  induction rows as [|r rs IH]; intros s acc o'; destruct o' as [|j o']; cbn [length seq combine fold_left grows pr]; try ring.
  rewrite IH. cbn [fst snd]. destruct (Nat.eqb i s); ring.
Qed.

(* xlerp is the tensor sum of [1-d; d] *)
Lemma xlerp_tsum : forall ds F, xlerp ds F == tsum (map (fun d => [1 - d; d]) ds) F.
Proof.
  induction ds as [|d ds IH]; intros F; cbn [xlerp tsum map]; [reflexivity|].
  unfold linear_interop. rewrite !IH. cbn [length seq map qsum fold_right nth]. ring.
Qed.

(* positions of the nodes: one base per dimension *)
Definition nodes (bases : list Q) (o : list nat) : list Q :=
  map (fun bi => fst bi + inject_Z (Z.of_nat (snd bi))) (combine bases o).

Definition sums (r : list Q) (m : Q) : Prop := qsum r == m.

Lemma qsum_nth : forall r, qsum (map (fun i => nth i r 0) (seq 0 (length r))) == qsum r.
Proof.
  induction r as [|x r IH]; [reflexivity|]. cbn [length seq map].
  rewrite <- seq_shift, map_map. cbn [nth]. unfold qsum in *. cbn [fold_right]. rewrite IH. reflexivity.
Qed.

Lemma tsum_affine : forall rows bases xs c slope,
  Forall2 (fun r bx => qsum r == 1 /\ moment r (fst bx) == snd bx) rows (combine bases xs) ->
  length bases = length xs -> length slope = length xs ->
  tsum rows (fun o => affine c slope (nodes bases o)) == affine c slope xs.
Proof.
  induction rows as [|r rs IH]; intros bases xs c slope H Hb Hs.
  - destruct bases as [|b bases], xs as [|x xs]; try discriminate; [|inversion H].
    destruct slope; [|discriminate]. cbn. reflexivity.
  - destruct bases as [|b bases], xs as [|x xs]; try discriminate; try (now inversion H).
    destruct slope as [|s slope]; [discriminate|].
    cbn [combine] in H. inversion H as [|? ? ? ? [S1 M1] H']; subst. clear H.
    cbn [fst snd] in *.
    cbn [tsum].
    assert (E : forall i, tsum rs (fun o => affine c (s :: slope) (nodes (b :: bases) (i :: o)))
      == (c + s * (b + inject_Z (Z.of_nat i))) + dot slope xs).
    { intros i. rewrite <- (IH bases xs (c + s * (b + inject_Z (Z.of_nat i))) slope); auto.
      - apply tsum_ext. intros o _. unfold affine, nodes. cbn [combine map dot fst snd]. ring. }
    rewrite (qsum_ext _ _ (fun i => nth i r 0 * (c + dot slope xs) + s * (nth i r 0 * (b + inject_Z (Z.of_nat i))))).
    2:{ intros i _. rewrite E. ring. }
    rewrite qsum_plus, qsum_scale, qsum_scale_r, qsum_nth, S1.
    unfold moment in M1. rewrite M1. unfold affine. cbn [dot]. ring.
Qed.

Lemma tsum_const : forall rows c, Forall (fun r => qsum r == 1) rows -> tsum rows (fun _ => c) == c.
Proof.
  induction rows as [|r rs IH]; intros c H; cbn [tsum]; [reflexivity|].
  inversion H; subst. rewrite (qsum_ext _ _ (fun i => nth i r 0 * c)).
  - rewrite qsum_scale_r, qsum_nth, H2. ring.
  - intros i _. rewrite (IH c) by assumption. reflexivity.
Qed.

(* one row (dimension i) sums to 0 with moment 1, the others are weights *)
Lemma tsum_gradient : forall rows bases xs c slope i,
  Forall2 (fun r bx => qsum r == 1 /\ moment r (fst bx) == snd bx) (map w0s rows) (combine bases xs) ->
  Forall2 (fun r b => qsum r == 0 /\ moment r b == 1) (map w1s rows) bases ->
  length bases = length xs -> length slope = length xs ->
  forall s, (s <= i)%nat -> (i < s + length rows)%nat ->
  tsum (grows i s rows) (fun o => affine c slope (nodes bases o)) == nth (i - s) slope 0.
Proof.
  induction rows as [|r rs IH]; intros bases xs c slope i H1 H2 Hb Hs s Si Hi; cbn [length] in Hi; [lia|].
  destruct bases as [|b bases], xs as [|x xs]; try discriminate; try (now inversion H2).
  destruct slope as [|sl slope]; [discriminate|].
  cbn [combine map] in *. inversion H1 as [|? ? ? ? [S1 M1] H1']; subst. inversion H2 as [|? ? ? ? [S2 M2] H2']; subst.
  clear H1 H2. cbn [fst snd length] in *. cbn [grows].
  destruct (Nat.eqb_spec i s) as [Eq|Ne].
  - subst s. rewrite Nat.sub_diag. cbn [nth tsum].
    assert (G : forall s', (i < s')%nat -> grows i s' rs = map w0s rs).
    { clear. revert i. induction rs as [|r rs IH]; intros i s' L; [reflexivity|]. cbn [grows map].
      destruct (Nat.eqb_spec i s'); [lia|]. f_equal. apply IH. lia. }
    rewrite (G (S i)) by lia.
    assert (E : forall j, tsum (map w0s rs) (fun o => affine c (sl :: slope) (nodes (b :: bases) (j :: o)))
      == (c + sl * (b + inject_Z (Z.of_nat j))) + dot slope xs).
    { intros j. rewrite <- (tsum_affine (map w0s rs) bases xs (c + sl * (b + inject_Z (Z.of_nat j))) slope); auto.
      apply tsum_ext. intros o _. unfold affine, nodes. cbn [combine map dot fst snd]. ring. }
    rewrite (qsum_ext _ _ (fun j => nth j (w1s r) 0 * (c + dot slope xs) + sl * (nth j (w1s r) 0 * (b + inject_Z (Z.of_nat j))))).
    2:{ intros j _. rewrite E. ring. }
    rewrite qsum_plus, qsum_scale, qsum_scale_r, qsum_nth, S2. unfold moment in M2. rewrite M2. ring.
  - replace (i - s)%nat with (S (i - S s)) by lia. cbn [nth tsum].
    rewrite (qsum_ext _ _ (fun j => nth j (w0s r) 0 * nth (i - S s) slope 0)).
    + rewrite qsum_scale_r, qsum_nth, S1. ring.
    + intros j _.
      rewrite <- (IH bases xs (c + sl * (b + inject_Z (Z.of_nat j))) slope i H1' H2') with (s := S s); auto; try lia.
      apply Qmult_comp; [reflexivity|].
      apply tsum_ext. intros o _. unfold affine, nodes. cbn [combine map dot fst snd]. ring.
Qed.

Lemma tsum_bounds : forall rows F lo hi,
  Forall (fun r => qsum r == 1 /\ Forall (fun w => 0 <= w) r) rows ->
  (forall o, inside rows o -> lo <= F o /\ F o <= hi) -> lo <= tsum rows F /\ tsum rows F <= hi.
Proof.
  induction rows as [|r rs IH]; intros F lo hi H B; cbn [tsum]; [apply B; constructor|].
  inversion H as [|? ? [S1 P] H']; subst.
  assert (E : forall i, (i < length r)%nat ->
     lo <= tsum rs (fun o => F (i :: o)) /\ tsum rs (fun o => F (i :: o)) <= hi).
  { intros i Hi. apply IH; [exact H'|]. intros o Ho. apply B. constructor; assumption. }
  assert (K : forall l, (forall i, In i l -> (i < length r)%nat) ->
     qsum (map (fun i => nth i r 0) l) * lo <= qsum (map (fun i => nth i r 0 * tsum rs (fun o => F (i :: o))) l) /\
     qsum (map (fun i => nth i r 0 * tsum rs (fun o => F (i :: o))) l) <= qsum (map (fun i => nth i r 0) l) * hi).
  { induction l as [|i l IHl]; intros Hl; cbn [map qsum fold_right]; [split; lra|].
    destruct IHl as [A1 A2]; [intros; apply Hl; right; assumption|].
    destruct (E i) as [B1 B2]; [apply Hl; left; reflexivity|].
    assert (W : 0 <= nth i r 0).
    { rewrite Forall_forall in P. apply P. apply nth_In. apply Hl. left; reflexivity. }
    unfold qsum in *. split; nra. }
  destruct (K (seq 0 (length r))) as [A1 A2]; [intros i Hi; apply in_seq in Hi; lia|].
  rewrite qsum_nth, S1 in A1, A2. split; lra.
Qed.
