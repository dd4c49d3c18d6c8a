(** The codec, and the moments of the quadratic kernel. *)
From Coq Require Import QArith Qround Lqa Qfield.
From Verif Require Import Prelude KernModel KernSpec KernProofs KernProofs2 KernProofs3 MpmModel MpmSpec.
From Verif Require SgModel SgSpec SgProofs SgProofs2.
Import SgModel(coordT, find_key, sentinel_v).
Open Scope Z_scope.

Section C.
Variable k : Z.
Hypothesis Hk : 0 <= k.
Lemma side_eq : side k = SgModel.side k. Proof. reflexivity. Qed.
Lemma side_pos : 0 < side k. Proof. apply (SgProofs.side_pos k Hk). Qed.
Lemma local_cellid z : local_index k z = SgModel.cellid k z. Proof. reflexivity. Qed.
Lemma block_div z : block_coord k z = map (fun x => x / side k) z.
Proof.
  apply map_ext. intros x. rewrite (SgProofs.land_mod k Hk). change (SgModel.side k) with (side k). pose proof side_pos.
  replace (x - x mod side k) with (x / side k * side k) by (pose proof (Z.div_mod x (side k)); lia).
  apply Z.quot_mul. lia.
Qed.
Lemma lor_add a x : 0 <= x < side k -> Z.lor (Z.shiftl a k) x = a * side k + x.
Proof.
  intros R. rewrite <- Z.shiftl_mul_pow2 by assumption.
  rewrite <- Z.lxor_lor, <- Z.add_nocarry_lxor; [reflexivity| |].
  all: apply Z.bits_inj'; intros n Hn; rewrite Z.land_spec, Z.bits_0;
    (destruct (Z.ltb_spec n k) as [L|L];
     [rewrite Z.shiftl_spec_low by assumption; reflexivity|]);
    rewrite <- (Z.mod_small x (2 ^ k)) by exact R; rewrite Z.mod_pow2_bits_high by lia; apply andb_false_r.
Qed.
Lemma cellid_horner c : Forall (fun x => 0 <= x < side k) c -> coord_to_cellid k c = SgModel.local_coord_to_offset k c.
Proof.
  intros F. rewrite (SgProofs.to_offset_horner k). unfold coord_to_cellid, SgProofs.horner.
  generalize 0. induction F as [|x c R _ IH]; intros a; [reflexivity|]. cbn [fold_left]. rewrite IH, lor_add by assumption. reflexivity.
Qed.
Lemma digits_eq d : forall c ret, 0 <= c -> cell_digits k d c ret = SgModel.offset_digits k d c ret.
Proof.
  induction d as [|d IH]; intros c ret Hc; [reflexivity|]. cbn [cell_digits SgModel.offset_digits].
  pose proof side_pos. rewrite IH by (apply Z.shiftr_nonneg; assumption).
  rewrite (SgProofs.land_mod k Hk), Z.shiftr_div_pow2 by assumption. change (2 ^ k) with (SgModel.side k).
  rewrite Z.quot_div_nonneg, Z.rem_mod_nonneg by (change (SgModel.side k) with (side k); lia). reflexivity.
Qed.
Lemma codec z : length z = 3%nat -> 0 <= coord_to_cellid k (local_index k z) < side k ^ 3 /\
  cellid_to_coord k (coord_to_cellid k (local_index k z)) = local_index k z.
Proof.
  intros L. rewrite local_cellid. pose proof (SgProofs.cellid_local k Hk z) as LC. rewrite L in LC.
  rewrite cellid_horner by apply LC. destruct (SgProofs.coord_offset k Hk 3 _ LC) as [A B].
  split; [exact A|]. unfold cellid_to_coord. rewrite digits_eq by lia. exact B.
Qed.
Lemma rebuild z d : (d < length z)%nat ->
  nth d (block_coord k z) 0 * side k + nth d (local_index k z) 0 = nth d z 0.
Proof.
  intros Hd. rewrite block_div. unfold local_index.
  rewrite (nth_indep _ 0 (0 / side k)) by (rewrite map_length; assumption). rewrite (map_nth (fun x => x / side k)).
  rewrite (nth_indep (map _ z) 0 (Z.land 0 (side k - 1))) by (rewrite map_length; assumption). rewrite (map_nth (fun x => Z.land x (side k - 1))).
  rewrite (SgProofs.land_mod k Hk). change (SgModel.side k) with (side k).
  pose proof (Z.div_mod (nth d z 0) (side k)). pose proof side_pos. lia.
Qed.
Lemma slot_spec keys z b c : length z = 3%nat -> slot_of k keys z = Some (b, c) ->
  In (b, c) (slots k keys) /\ (forall dx d, (d < 3)%nat -> (node_pos k keys dx b c d == inject_Z (nth d z 0%Z) * dx)%Q).
Proof.
  intros L. unfold slot_of. destruct (Z.eqb_spec (find_key keys (block_coord k z) 0) sentinel_v) as [|N]; [discriminate|].
  intros E; injection E as <- <-.
  destruct (in_dec (list_eq_dec Z.eq_dec) (block_coord k z) keys) as [Hin|Hout].
  2:{ exfalso. apply N. apply SgProofs2.find_key_notin. assumption. }
  destruct (SgProofs2.find_key_in _ _ 0 (Z.le_refl 0) Hin) as (j & Hj & Ej & _). rewrite Ej, Z.add_0_l.
  destruct (codec z L) as [R B]. split.
  - unfold slots. apply in_prod.
    + unfold blocks. apply in_map, in_seq. assert (j < length keys)%nat by (apply nth_error_Some; congruence). lia.
    + unfold cells. apply in_map_iff. exists (Z.to_nat (coord_to_cellid k (local_index k z))). split; [lia|]. apply in_seq. lia.
  - intros dx d Hd. unfold node_pos. rewrite B, Nat2Z.id, (nth_error_nth _ _ _ Hj).
    rewrite <- (rebuild z d) by lia. rewrite inject_Z_plus, inject_Z_mult. reflexivity.
Qed.
Lemma slots_nodup keys : NoDup (slots k keys).
Proof.
  assert (P : forall (A B : Type) (l : list A) (l' : list B), NoDup l -> NoDup l' -> NoDup (list_prod l l')).
  { intros A B l l' H H'. induction H as [|x l N _ IH]; cbn; [constructor|].
    assert (forall a b, NoDup a -> NoDup b -> (forall x : A * B, In x a -> ~ In x b) -> NoDup (a ++ b)) as App.
    { clear. induction a as [|y a IH]; intros b Na Nb D; cbn; [assumption|]. inversion Na; subst. constructor.
      - rewrite in_app_iff. intros [G|G]; [contradiction|]. apply (D y); [left; reflexivity|assumption].
      - apply IH; auto. intros x G. apply D. right. assumption. }
    apply App; auto.
    - apply FinFun.Injective_map_NoDup; [|assumption]. intros u v E. congruence.
    - intros [u v] G G'. apply in_map_iff in G as (w & E & _). injection E as <- <-. apply in_prod_iff in G' as [G' _]. contradiction. }
  apply P; (apply FinFun.Injective_map_NoDup; [intros u v E; lia|apply seq_NoDup]).
Qed.
End C.

Local Open Scope Q_scope.
Lemma total_ext {A} (f g : A -> Q) l : (forall x, In x l -> f x == g x) -> total f l == total g l.
Proof. apply qsum_ext. Qed.
Lemma total_plus {A} (f g : A -> Q) l : total (fun x => f x + g x) l == total f l + total g l.
Proof. apply qsum_plus. Qed.
Lemma total_scale {A} (f : A -> Q) c l : total (fun x => c * f x) l == c * total f l.
Proof. apply qsum_scale. Qed.
Lemma total_cons {A} (f : A -> Q) x l : total f (x :: l) == f x + total f l.
Proof. reflexivity. Qed.
Lemma total_app {A} (f : A -> Q) l l' : total f (l ++ l') == total f l + total f l'.
Proof. unfold total. rewrite map_app. apply qsum_app. Qed.
Lemma total_zero {A} (f : A -> Q) l : (forall x, In x l -> f x == 0) -> total f l == 0.
Proof. intros H. induction l as [|a l IH]; [reflexivity|]. rewrite total_cons, IH, H; [ring|left; reflexivity|]. intros; apply H; right; assumption. Qed.
Lemma total_perm {A} (f : A -> Q) l l' : Permutation l l' -> total f l == total f l'.
Proof.
  induction 1; rewrite ?total_cons; try reflexivity.
  - rewrite IHPermutation. reflexivity.
  - ring.
  - etransitivity; eassumption.
Qed.
Lemma total_swap {A B} (f : A -> B -> Q) l l' : total (fun a => total (f a) l') l == total (fun b => total (fun a => f a b) l) l'.
Proof.
  induction l as [|a l IH].
  - symmetry. apply total_zero. reflexivity.
  - rewrite total_cons, IH. rewrite <- total_plus. apply total_ext. intros. rewrite total_cons. reflexivity.
Qed.

(** one dimension *)
Definition w1 (x dx : Q) (i : nat) : Q := nth i (w0s (quadratic_row (x / dx - inject_Z (base_node 1 (x / dx))))) 0.
Definition d1 (x dx : Q) (i : nat) : Q := inject_Z (Z.of_nat i) * dx - (x / dx - inject_Z (base_node 1 (x / dx))) * dx.
Lemma local_base x : let l := x - inject_Z (base_node 1 x) in base_node 1 l = 0%Z /\ (1#2) <= l /\ l < 3#2.
Proof.
  cbv zeta. unfold base_node, lower_trunc. set (h := (1#2) * inject_Z (Z.of_nat 1)).
  assert (Hh : h == 1#2) by reflexivity. clearbody h.
  pose proof (Qfloor_le (x - h)) as A. pose proof (Qlt_floor (x - h)) as B. rewrite inject_Z_plus in B. change (inject_Z 1) with 1 in B.
  split; [apply floor_zero|split]; lra.
Qed.
Lemma w1_shape x dx : exists l, (1#2) <= l /\ l < 3#2 /\ x / dx - inject_Z (base_node 1 (x / dx)) = l /\
  w1 x dx 0 == (1#2) * ((3#2) - l) * ((3#2) - l) /\ w1 x dx 1 == (3#4) - (l - 1) * (l - 1) /\
  w1 x dx 2 == (1#2) * (l - (1#2)) * (l - (1#2)).
Proof.
  unfold w1. destruct (local_base (x / dx)) as (B & R1 & R2).
  set (l := x / dx - inject_Z (base_node 1 (x / dx))) in *. exists l. clearbody l. unfold quadratic_row. rewrite B.
  change (inject_Z 0) with 0. cbn [w0s nth]. repeat split; auto; ring.
Qed.
Lemma w1_nonneg x dx i : 0 <= w1 x dx i.
Proof.
  destruct (w1_shape x dx) as (l & R1 & R2 & _ & E0 & E1 & E2).
  destruct i as [|[|[|i]]]; rewrite ?E0, ?E1, ?E2; [nra|nra|nra|].
  unfold w1, quadratic_row. cbn. destruct i; cbn; lra.
Qed.
Definition s1 (f : nat -> Q) : Q := f 0%nat + f 1%nat + f 2%nat.
Lemma mom0 x dx : s1 (w1 x dx) == 1.
Proof. destruct (w1_shape x dx) as (l & _ & _ & _ & E0 & E1 & E2). unfold s1. rewrite E0, E1, E2. ring. Qed.
Lemma mom1 x dx : s1 (fun i => w1 x dx i * d1 x dx i) == 0.
Proof.
  destruct (w1_shape x dx) as (l & _ & _ & El & E0 & E1 & E2). unfold s1, d1. rewrite E0, E1, E2, El.
  change (inject_Z (Z.of_nat 0)) with 0. change (inject_Z (Z.of_nat 1)) with 1. change (inject_Z (Z.of_nat 2)) with 2. ring.
Qed.
Lemma mom2 x dx : s1 (fun i => w1 x dx i * d1 x dx i * d1 x dx i) == dx * dx * (1#4).
Proof.
  destruct (w1_shape x dx) as (l & _ & _ & El & E0 & E1 & E2). unfold s1, d1. rewrite E0, E1, E2, El.
  change (inject_Z (Z.of_nat 0)) with 0. change (inject_Z (Z.of_nat 1)) with 1. change (inject_Z (Z.of_nat 2)) with 2. ring.
Qed.

Lemma sum27 (p q r : nat -> Q) :
  total (fun o => p (nth 0 o 0%nat) * q (nth 1 o 0%nat) * r (nth 2 o 0%nat)) arange == s1 p * s1 q * s1 r.
Proof.
  unfold s1. cbn. generalize (p 0%nat) (p 1%nat) (p 2%nat) (q 0%nat) (q 1%nat) (q 2%nat) (r 0%nat) (r 1%nat) (r 2%nat).
  clear. intros. ring.
Qed.
Section A.
Variables (dx : Q) (x : vec).
Notation ar := (make_local_arena dx x).
Lemma weight_eq loc : weight ar loc == w1 (x 0%nat) dx (nth 0 loc 0%nat) * w1 (x 1%nat) dx (nth 1 loc 0%nat) * w1 (x 2%nat) dx (nth 2 loc 0%nat).
Proof. unfold weight. cbn [axes fold_left]. cbn [aw make_local_arena]. unfold w1. ring. Qed.
Lemma diff_eq loc d : diff ar loc d = d1 (x d) dx (nth d loc 0%nat).
Proof. reflexivity. Qed.
Lemma weight_nonneg loc : 0 <= weight ar loc.
Proof. rewrite weight_eq. repeat apply Qmult_le_0_compat; apply w1_nonneg. Qed.
Lemma W0 : total (weight ar) arange == 1.
Proof. rewrite (total_ext _ _ _ (fun o _ => weight_eq o)). rewrite sum27, !mom0. reflexivity. Qed.
Lemma W1 a : (a < 3)%nat -> total (fun o => weight ar o * diff ar o a) arange == 0.
Proof.
  intros Ha. destruct a as [|[|[|a]]]; [| | |lia].
  - rewrite (total_ext _ (fun o => (w1 (x 0%nat) dx (nth 0 o 0%nat) * d1 (x 0%nat) dx (nth 0 o 0%nat)) * w1 (x 1%nat) dx (nth 1 o 0%nat) * w1 (x 2%nat) dx (nth 2 o 0%nat)))
      by (intros o _; rewrite weight_eq, diff_eq; ring).
    rewrite (sum27 (fun i => w1 (x 0%nat) dx i * d1 (x 0%nat) dx i)), mom1. ring.
  - rewrite (total_ext _ (fun o => w1 (x 0%nat) dx (nth 0 o 0%nat) * (w1 (x 1%nat) dx (nth 1 o 0%nat) * d1 (x 1%nat) dx (nth 1 o 0%nat)) * w1 (x 2%nat) dx (nth 2 o 0%nat)))
      by (intros o _; rewrite weight_eq, diff_eq; ring).
    rewrite (sum27 _ (fun i => w1 (x 1%nat) dx i * d1 (x 1%nat) dx i)), mom1. ring.
  - rewrite (total_ext _ (fun o => w1 (x 0%nat) dx (nth 0 o 0%nat) * w1 (x 1%nat) dx (nth 1 o 0%nat) * (w1 (x 2%nat) dx (nth 2 o 0%nat) * d1 (x 2%nat) dx (nth 2 o 0%nat))))
      by (intros o _; rewrite weight_eq, diff_eq; ring).
    rewrite (sum27 _ _ (fun i => w1 (x 2%nat) dx i * d1 (x 2%nat) dx i)), mom1. ring.
Qed.
Definition gm (a b d : nat) (i : nat) : Q :=
  w1 (x d) dx i * (if Nat.eqb a d then d1 (x d) dx i else 1) * (if Nat.eqb b d then d1 (x d) dx i else 1).
Lemma W2 a b : (a < 3)%nat -> (b < 3)%nat ->
  total (fun o => weight ar o * diff ar o a * diff ar o b) arange == if Nat.eqb a b then dx * dx * (1#4) else 0.
Proof.
  intros Ha Hb.
  rewrite (total_ext _ (fun o => gm a b 0 (nth 0 o 0%nat) * gm a b 1 (nth 1 o 0%nat) * gm a b 2 (nth 2 o 0%nat))).
  2:{ intros o _. rewrite weight_eq, !diff_eq. unfold gm. destruct a as [|[|[|a]]]; try lia; destruct b as [|[|[|b]]]; try lia; cbn [Nat.eqb]; ring. }
  rewrite sum27.
  assert (M0 : forall d, s1 (fun i => w1 (x d) dx i * 1 * 1) == 1) by (intros d; rewrite <- (mom0 (x d) dx); unfold s1; ring).
  assert (M1 : forall d, s1 (fun i => w1 (x d) dx i * d1 (x d) dx i * 1) == 0) by (intros d; rewrite <- (mom1 (x d) dx); unfold s1; ring).
  assert (M1' : forall d, s1 (fun i => w1 (x d) dx i * 1 * d1 (x d) dx i) == 0) by (intros d; rewrite <- (mom1 (x d) dx); unfold s1; ring).
  unfold gm. destruct a as [|[|[|a]]]; try lia; destruct b as [|[|[|b]]]; try lia; cbn [Nat.eqb];
    rewrite ?M0, ?M1, ?M1', ?mom2; ring.
Qed.
(** an affine function of the offset, and its first moments *)
Definition aff (al : Q) (be : vec) (loc : list nat) : Q := al + (be 0%nat * diff ar loc 0%nat + be 1%nat * diff ar loc 1%nat + be 2%nat * diff ar loc 2%nat).
Lemma A0 al be : total (fun o => weight ar o * aff al be o) arange == al.
Proof.
  rewrite (total_ext _ (fun o => (al * weight ar o + be 0%nat * (weight ar o * diff ar o 0%nat)) + (be 1%nat * (weight ar o * diff ar o 1%nat) + be 2%nat * (weight ar o * diff ar o 2%nat))))
    by (intros o _; unfold aff; ring).
  rewrite !total_plus, !total_scale, W0, !W1 by lia. ring.
Qed.
Lemma A1 al be a : (a < 3)%nat -> total (fun o => weight ar o * aff al be o * diff ar o a) arange == be a * (dx * dx * (1#4)).
Proof.
  intros Ha. rewrite (total_ext _ (fun o => (al * (weight ar o * diff ar o a) + be 0%nat * (weight ar o * diff ar o 0%nat * diff ar o a)) + (be 1%nat * (weight ar o * diff ar o 1%nat * diff ar o a) + be 2%nat * (weight ar o * diff ar o 2%nat * diff ar o a))))
    by (intros o _; unfold aff; ring).
  rewrite !total_plus, !total_scale, W1, !W2 by lia. destruct a as [|[|[|a]]]; try lia; cbn [Nat.eqb]; ring.
Qed.
Lemma node_diff loc d : (d < 3)%nat -> ~ dx == 0 -> inject_Z (nth d (coord ar loc) 0%Z) * dx == x d + diff ar loc d.
Proof.
  intros Hd Hx. unfold coord, axes. destruct d as [|[|[|d]]]; try lia; cbn [map nth]; unfold diff; cbn [make_local_arena acorner alocal adx];
    rewrite inject_Z_plus; field; assumption.
Qed.
Lemma coord_length loc : length (coord ar loc) = 3%nat.
Proof. reflexivity. Qed.
End A.
