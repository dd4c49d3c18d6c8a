(** * Proofs for the sampling of level sets *)

From Coq Require Import QArith Qround Qabs List Lia Lqa ZArith.
From Verif Require Import KernModel KernSpec KernProofs KernProofs2 KernProofs3 KernProofs4 KernProofs5 SlModel SlSpec.
Import ListNotations.
Open Scope Q_scope.

(** Cells and blocks. *)
Lemma cell_step : forall r x, (0 <= x < 8)%Z -> Z.lor (Z.shiftl r 3) x = (r * 8 + x)%Z.
Proof.
  intros r x H. rewrite Z.shiftl_mul_pow2 by lia.
  assert (E : Z.land (r * 2 ^ 3) x = 0%Z).
  { apply Z.bits_inj'. intros n Hn. rewrite Z.land_spec, Z.bits_0.
    destruct (Z_lt_le_dec n 3) as [L|L].
    - rewrite Z.mul_pow2_bits_low by exact L. reflexivity.
    - assert (T : Z.testbit x n = false).
      { destruct (Z.eq_dec x 0) as [->|N]; [apply Z.bits_0|].
        apply Z.bits_above_log2; [lia|].
        assert (Z.log2 x < 3)%Z by (apply Z.log2_lt_pow2; lia). lia. }
      rewrite T. apply andb_false_r. }
  rewrite <- (Z.lxor_lor _ _ E), <- (Z.add_nocarry_lxor _ _ E). reflexivity.
Qed.

Lemma cellid_fold : forall o r, local o ->
  fold_left (fun ret x => Z.lor (Z.shiftl ret 3) x) o r = (r * 8 ^ Z.of_nat (length o) + cell_number o)%Z.
Proof.
  induction o as [|x o IH]; intros r H; cbn [fold_left cell_number length].
  - change (8 ^ Z.of_nat 0)%Z with 1%Z. lia.
  - inversion H; subst. rewrite cell_step, IH by assumption.
    rewrite Nat2Z.inj_succ, Z.pow_succ_r by lia. ring.
Qed.

Lemma split_one : forall k x, (8 | k)%Z -> (0 <= x < 8)%Z -> Z.land (k + x) 7 = x.
Proof.
  intros k x [q ->] H. change 7%Z with (Z.ones 3). rewrite Z.land_ones by lia. change (2 ^ 3)%Z with 8%Z.
  rewrite Z.add_comm, Z_mod_plus_full. apply Z.mod_small. exact H.
Qed.

Lemma decompose_ok : forall l k o, block_coord k -> local o -> length k = length o ->
  decompose_coord l (sum k o) = (query l k, cell_number o).
Proof.
  intros l k o K O L. unfold decompose_coord.
  assert (E : map (fun x => Z.land x 7) (sum k o) = o /\
              map (fun p => (fst p - snd p)%Z) (combine (sum k o) o) = k).
  { revert o O L. induction K as [|a k A K IH]; intros [|x o] O L; try discriminate; [split; reflexivity|].
    inversion O; subst. cbn [sum map combine fst snd]. destruct (IH o) as [E1 E2]; [assumption|cbn in L; congruence|].
    rewrite E1, E2, split_one by assumption. split; [reflexivity|f_equal; lia]. }
  destruct E as [E1 E2]. cbv zeta. rewrite E1, E2. unfold coord_to_cellid. rewrite cellid_fold by exact O.
  f_equal.
Qed.

(** Faces. *)
Lemma side_ok : forall c s i up,
  Forall2 Qeq (face_centre_from s i
     (if up : bool then map (fun p => if Nat.eqb (fst p) i then (snd p + 1)%Z else snd p) (combine (seq s (length c)) c) else c))
    (side_centre_from s i up c).
Proof.
  induction c as [|x c IH]; intros s i up; destruct up; cbn [length seq combine map face_centre_from side_centre_from fst snd];
    try constructor.
  - destruct (Nat.eqb s i); [rewrite inject_Z_plus|]; reflexivity.
  - apply (IH (S s) i true).
  - destruct (Nat.eqb s i); ring.
  - apply (IH (S s) i false).
Qed.

Section Face.
Variable sq : Q -> Q.

Definition dl (X : list Q) (f : nat) : list Q := map (delta f) (seq 0 (length X)).

Lemma dl_length : forall X f, length (dl X f) = length X.
Proof. intros. unfold dl. rewrite map_length, seq_length. reflexivity. Qed.

Lemma face_placed : forall kt X f, placed sq kt (arena_face sq kt X f) (bases_of kt X (dl X f)) X.
Proof.
  intros kt X f. pose proof (dl_length X f) as Ld.
  constructor; cbn [arena_face pads iLocalPos iCorner]; fold (dl X f); [reflexivity| | |].
  - unfold bases_of. revert Ld. generalize (dl X f) as ds.
    induction X as [|x X IH]; intros [|d ds] Ld; try discriminate; cbn [combine map fst snd]; constructor.
    + unfold cell; cbn [fst snd]. pose proof (off0_range kt (x - d)) as Z. unfold off0 in Z.
      split; [reflexivity|]. destruct Z. split; lra.
    + apply IH. cbn in Ld. congruence.
  - unfold bases_of. rewrite map_length, combine_length, map_length, combine_length. lia.
  - rewrite map_length, combine_length. lia.
Qed.

Lemma centre_shift : forall z s f,
  Forall2 Qeq (map (fun pd => fst pd + snd pd) (combine (map inject_Z z) (map (delta f) (seq s (length z)))))
    (face_centre_from s f z).
Proof.
  induction z as [|x z IH]; intros s f; cbn [length seq map combine fst snd face_centre_from]; constructor; [|apply IH].
  unfold delta. destruct (Nat.eqb s f); ring.
Qed.

Lemma face_nodes : forall kt X f o, length o = length X ->
  Forall2 Qeq (nodes (bases_of kt X (dl X f)) o) (face_centre f (coord (arena_face sq kt X f) o)).
Proof.
  intros kt X f o Lo. unfold face_centre.
  set (z := coord (arena_face sq kt X f) o).
  assert (Lz : length z = length X).
  { unfold z, coord. cbn [arena_face iCorner].
    rewrite !map_length, combine_length, map_length, combine_length, map_length, seq_length. lia. }
  refine (F2_trans _ _ _ _ (centre_shift z 0 f)). rewrite Lz. fold (dl X f). clear Lz.
  unfold z, coord. cbn [arena_face iCorner]. fold (dl X f). unfold bases_of, nodes.
  clear z. revert o Lo. generalize (dl X f) as ds.
  induction X as [|x X IH]; intros [|d ds] [|i o] Lo; cbn [combine map fst snd]; try constructor; try discriminate.
  - cbn [fst snd]. rewrite inject_Z_plus. ring.
  - apply IH. cbn in Lo. congruence.
Qed.

Hypothesis R : root_like sq.

Lemma face_affine : forall kt X f c slope value, length slope = length X ->
  (forall z, within (radius kt) (face_centre f z) X -> value z == affine c slope (face_centre f z)) ->
  isample kt (arena_face sq kt X f) value == affine c slope X.
Proof.
  intros kt X f c slope value Ls H. pose proof (face_placed kt X f) as P.
  eapply affine_sample; eauto. intros o Ho.
  assert (Lo : length o = length X).
  { pose proof (F2_length' _ _ _ _ _ Ho) as L. rewrite map_length in L.
    pose proof (placed_length _ _ _ _ _ P) as [_ L2]. congruence. }
  pose proof (face_nodes kt X f o Lo) as E.
  rewrite (affine_F2 c slope _ _ E). apply H.
  eapply within_F2; [exact E|]. eapply nodes_within; eauto.
Qed.

(** Bounds, for an arena whose stencil positions are [pos]. *)
Lemma bounds : forall kt a bases X value (pos : list Z -> list Q) m M, placed sq kt a bases X ->
  (forall o, length o = length X -> Forall2 Qeq (nodes bases o) (pos (coord a o))) ->
  (forall z, within (radius kt) (pos z) X -> m <= value z /\ value z <= M) ->
  m <= isample kt a value /\ isample kt a value <= M.
Proof.
  intros kt a bases X value pos m M P N H.
  destruct (minimum_ok kt a value) as (lo & Elo & (o1 & I1 & V1) & _).
  destruct (maximum_ok kt a value) as (hi & Ehi & (o2 & I2 & V2) & _).
  pose proof (sample_bounds sq R kt a bases X value lo hi P Elo Ehi) as [A B].
  assert (K : forall o, In o (ndrange (length (pads a)) (width kt)) -> m <= value (coord a o) /\ value (coord a o) <= M).
  { intros o Ho. pose proof (placed_widths _ _ _ _ _ P) as W.
    assert (I : inside (map w0s (pads a)) o).
    { apply (ndrange_inside _ (width kt) o W). rewrite map_length. exact Ho. }
    apply H. pose proof (F2_length' _ _ _ _ _ I) as L. rewrite map_length in L.
    pose proof (placed_length _ _ _ _ _ P) as [_ L2].
    eapply within_F2; [apply N; congruence|]. eapply nodes_within; eauto. }
  destruct (K _ I1), (K _ I2). rewrite V1 in *. rewrite V2 in *. split; lra.
Qed.
End Face.

(** The four-point average. *)
Definition bfrom (s i : nat) (k : Z) (c : list Z) : list Z :=
  map (fun p => if Nat.eqb (fst p) i then (snd p + k)%Z else snd p) (combine (seq s (length c)) c).

Fixpoint avg (s d f : nat) (c : list Z) (V : list Z -> Q) : Q :=
  match c with
  | [] => V []
  | x :: c' =>
    let A y := avg (S s) d f c' (fun z => V (y :: z)) in
    if Nat.eqb s d then (if Nat.eqb s f then A x else (1#2) * (A x + A (x + 1)%Z))
    else if Nat.eqb s f then (1#2) * (A (x - 1)%Z + A x) else A x
  end.

Lemma avg_far : forall c s d f V, (d < s)%nat -> (f < s)%nat -> avg s d f c V = V c.
Proof.
  induction c as [|x c IH]; intros s d f V D F; cbn [avg]; [reflexivity|].
  destruct (Nat.eqb_spec s d); [lia|]. destruct (Nat.eqb_spec s f); [lia|]. rewrite IH by lia. reflexivity.
Qed.
Lemma avg_same : forall c s d V, avg s d d c V = V c.
Proof.
  induction c as [|x c IH]; intros s d V; cbn [avg]; [reflexivity|]. rewrite IH. destruct (Nat.eqb s d); reflexivity.
Qed.
Lemma bfrom_far : forall c s i k, (i < s)%nat -> bfrom s i k c = c.
Proof.
  induction c as [|x c IH]; intros s i k H; [reflexivity|].
  change (bfrom s i k (x :: c)) with ((if Nat.eqb s i then (x + k)%Z else x) :: bfrom (S s) i k c).
  rewrite IH by lia. destruct (Nat.eqb_spec s i); [lia|reflexivity].
Qed.
Lemma bfrom_cons : forall s i k x c,
  bfrom s i k (x :: c) = (if Nat.eqb s i then (x + k)%Z else x) :: bfrom (S s) i k c.
Proof. reflexivity. Qed.

Lemma avg_d : forall c s d f V, (f < s)%nat -> (s <= d < s + length c)%nat ->
  avg s d f c V == (1#2) * (V c + V (bfrom s d 1 c)).
Proof.
  induction c as [|x c IH]; intros s d f V F D; cbn [length] in D; [lia|]. cbn [avg]. rewrite bfrom_cons.
  destruct (Nat.eqb_spec s d).
  - subst. destruct (Nat.eqb_spec d f); [lia|]. rewrite !avg_far by lia. rewrite bfrom_far by lia. reflexivity.
  - destruct (Nat.eqb_spec s f); [lia|]. apply (IH (S s) d f (fun z => V (x :: z))); lia.
Qed.
Lemma avg_f : forall c s d f V, (d < s)%nat -> (s <= f < s + length c)%nat ->
  avg s d f c V == (1#2) * (V (bfrom s f (-1) c) + V c).
Proof.
  induction c as [|x c IH]; intros s d f V F D; cbn [length] in D; [lia|]. cbn [avg]. rewrite bfrom_cons.
  destruct (Nat.eqb_spec s d); [lia|]. destruct (Nat.eqb_spec s f).
  - subst. rewrite !avg_far by lia. rewrite bfrom_far by lia. reflexivity.
  - apply (IH (S s) d f (fun z => V (x :: z))); lia.
Qed.
Lemma avg_four : forall c s d f V, d <> f -> (s <= d < s + length c)%nat -> (s <= f < s + length c)%nat ->
  avg s d f c V == (V c + V (bfrom s d 1 c) + V (bfrom s f (-1) c) + V (bfrom s d 1 (bfrom s f (-1) c))) * (1#4).
Proof.
  induction c as [|x c IH]; intros s d f V N D F; cbn [length] in D, F; [lia|]. cbn [avg]. rewrite !bfrom_cons.
  destruct (Nat.eqb_spec s d); [|destruct (Nat.eqb_spec s f)].
  - subst. destruct (Nat.eqb_spec d f); [lia|]. rewrite !avg_f by lia. rewrite !(bfrom_far _ (S d) d) by lia. ring.
  - subst. rewrite !avg_d by lia. rewrite !(bfrom_far _ (S f) f) by lia.
    replace (x + -1)%Z with (x - 1)%Z by lia. ring.
  - apply (IH (S s) d f (fun z => V (x :: z))); lia.
Qed.

Lemma floor_int : forall q z, q == inject_Z z -> Qfloor q = z.
Proof. intros q z E. rewrite (Qfloor_comp _ _ E). apply Qfloor_Z. Qed.
Lemma floor_half : forall q z, q == inject_Z z + (1#2) -> Qfloor q = z.
Proof.
  intros q z E. pose proof (Qfloor_le q) as A. pose proof (Qlt_floor q) as B.
  rewrite inject_Z_plus in B. change (inject_Z 1) with 1 in B.
  assert (C : inject_Z z < inject_Z (Qfloor q + 1)) by (rewrite inject_Z_plus; change (inject_Z 1) with 1; lra).
  assert (D : inject_Z (Qfloor q) < inject_Z (z + 1)) by (rewrite inject_Z_plus; change (inject_Z 1) with 1; lra).
  rewrite <- Zlt_Qlt in C, D. lia.
Qed.

(** One dimension of the arena at a face centre. *)
Lemma avg_sample : forall c s d f (V : list Z -> Q),
  let X := face_centre_from s f c in
  let ds := map (delta d) (seq s (length X)) in
  let corner := map (fun xd => base_node 0 (fst xd - snd xd)) (combine X ds) in
  let loc := map (fun xcd => fst xcd - (inject_Z (fst (snd xcd)) + snd (snd xcd))) (combine X (combine corner ds)) in
  xlerp loc (fun o => V (map (fun ci => (fst ci + Z.of_nat (snd ci))%Z) (combine corner o))) == avg s d f c V.
Proof.
  induction c as [|x c IH]; intros s d f V; cbn [face_centre_from length seq map combine fst snd xlerp avg];
    [reflexivity|].
  cbn zeta in IH. unfold linear_interop.
  set (b := base_node 0 _). change (Z.of_nat 0) with 0%Z. change (Z.of_nat 1) with 1%Z.
  rewrite (IH (S s) d f (fun z => V ((b + 0)%Z :: z))), (IH (S s) d f (fun z => V ((b + 1)%Z :: z))).
  unfold b, base_node, lower_trunc. cbn [fst snd]. unfold delta.
  destruct (Nat.eqb s f) eqn:F, (Nat.eqb s d) eqn:D.
  - rewrite (floor_int _ x) by (change (inject_Z (Z.of_nat 0)) with 0; ring). rewrite !Z.add_0_r. ring.
  - rewrite (floor_half _ (x - 1)).
    + replace (x - 1 + 0)%Z with (x - 1)%Z by lia. replace (x - 1 + 1)%Z with x by lia.
      unfold Z.sub. rewrite inject_Z_plus. change (inject_Z (- (1))) with (-(1)). ring.
    + unfold Z.sub. rewrite inject_Z_plus. change (inject_Z (- (1))) with (-(1)). change (inject_Z (Z.of_nat 0)) with 0. ring.
  - rewrite (floor_half _ x) by (change (inject_Z (Z.of_nat 0)) with 0; ring). rewrite !Z.add_0_r. ring.
  - rewrite (floor_int _ x) by (change (inject_Z (Z.of_nat 0)) with 0; ring). rewrite !Z.add_0_r. ring.
Qed.

Lemma centre_length : forall c s f, length (face_centre_from s f c) = length c.
Proof. induction c; intros; cbn; congruence. Qed.

Lemma four_ok : forall sq l off c f d dflt, (f < length c)%nat -> (d < length c)%nat ->
  (if Nat.eqb d f then value_or l (off + d) c dflt
    else (value_or l (off + d) c dflt + value_or l (off + d) (bump d 1 c) dflt
          + value_or l (off + d) (bump f (-1) c) dflt + value_or l (off + d) (bump d 1 (bump f (-1) c)) dflt) * (1#4))
  == sample_face sq Linear l (off + d) d (face_centre f c) dflt.
Proof.
  intros sq l off c f d dflt F D. unfold sample_face, isample, face_centre.
  cbn [arena_face iLocalPos]. unfold pad_of, coord. cbn [arena_face iCorner lerp_degree].
  rewrite (avg_sample c 0 d f (fun z => value_or l (off + d) z dflt)).
  destruct (Nat.eqb_spec d f).
  - subst. rewrite avg_same. reflexivity.
  - rewrite avg_four by lia. reflexivity.
Qed.
