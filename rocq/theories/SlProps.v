(** * C108: reading and sampling a sparse level set, in exact arithmetic and index space *)

From Coq Require Import QArith Qabs List Lia Lqa ZArith.
From Verif Require Import KernModel KernSpec KernProofs3 KernProofs4 KernProofs5 KernProps SlModel SlSpec SlProofs.
Import ListNotations.
Open Scope Q_scope.

(** A coordinate is read from its cell in its block, whatever its sign; the default where the
    block is absent. *)
Theorem C108_read : forall l chn k o dflt, block_coord k -> local o -> length k = length o ->
  value_or l chn (sum k o) dflt =
    match query l k with Some b => grid l chn b (cell_number o) | None => dflt end.
Proof.
  intros l chn k o dflt K O L. unfold value_or. rewrite decompose_ok by assumption. destruct (query l k); reflexivity.
Qed.
Print Assumptions C108_read.

(** Every coordinate has one block and one cell. *)
Theorem C108_cell : forall c, exists k o, block_coord k /\ local o /\ length k = length o /\ c = sum k o /\
  forall k' o', block_coord k' -> local o' -> length k' = length o' -> c = sum k' o' -> k' = k /\ o' = o.
Proof.
  induction c as [|x c (k & o & K & O & L & E & U)].
  - exists [], []. repeat (split; [constructor|]).
    intros [|a k'] [|b o'] _ _ L E; cbn in *; try discriminate. split; reflexivity.
  - exists ((x - x mod 8)%Z :: k), ((x mod 8)%Z :: o).
    pose proof (Z.mod_pos_bound x 8 ltac:(lia)) as B. pose proof (Z.div_mod x 8 ltac:(lia)) as Q.
    split; [constructor; [exists (x / 8)%Z; lia|exact K]|]. split; [constructor; assumption|].
    split; [cbn; congruence|]. split; [cbn [sum]; rewrite <- E; f_equal; lia|].
    intros [|a k'] [|b o'] K' O' L' E'; cbn [sum length] in *; try discriminate.
    inversion K' as [|? ? [q Hq] K2]; inversion O'; subst.
    assert (Ex : x = (q * 8 + b)%Z) by congruence. assert (Et : sum k o = sum k' o') by congruence.
    destruct (U k' o') as [-> ->]; [assumption|assumption|congruence|exact Et|].
    assert (Em : (x mod 8 = b)%Z) by (rewrite Ex, Z.add_comm, Z_mod_plus_full; apply Z.mod_small; lia).
    split; f_equal; lia.
Qed.
Print Assumptions C108_cell.

(** A face of a cell: orientations 0 to dim - 1 are its lower faces, dim to 2 dim - 1 its upper
    ones, and each is read where that face is stored. *)
Theorem C108_face_read : forall l chn c i up dflt, (i < length c)%nat ->
  exists z, Forall2 Qeq (face_centre i z) (side_centre i up c) /\
    value_or_face l chn c (if up then length c + i else i)%nat dflt = value_or l chn z dflt.
Proof.
  intros l chn c i up dflt H. exists (if up then bump i 1 c else c). split.
  - apply (side_ok c 0 i up).
  - unfold value_or_face. destruct up.
    + rewrite Nat.mod_small by lia. destruct (Nat.leb_spec (length c) (length c + i)); [|lia].
      replace (length c + i - length c)%nat with i by lia. reflexivity.
    + rewrite Nat.mod_small by lia. destruct (Nat.leb_spec (length c) i); [lia|reflexivity].
Qed.
Print Assumptions C108_face_read.

(** Sampling reproduces affine fields. *)
Theorem C108_affine : forall sq b l chn X c slope dflt, root_like sq -> length slope = length X ->
  (forall z, within (radius (kt_of b)) (node_position z) X ->
     value_or l chn z dflt == affine c slope (node_position z)) ->
  sample_node sq (kt_of b) l chn X dflt == affine c slope X.
Proof. intros. apply C54_sample_reproduces_affine; assumption. Qed.
Print Assumptions C108_affine.

Theorem C108_face_affine : forall sq b l chn f X c slope dflt, root_like sq -> length slope = length X ->
  (forall z, within (radius (kt_of b)) (face_centre f z) X ->
     value_or l chn z dflt == affine c slope (face_centre f z)) ->
  sample_face sq (kt_of b) l chn f X dflt == affine c slope X.
Proof. intros. apply face_affine; assumption. Qed.
Print Assumptions C108_face_affine.

(** A sample stays within the values around it. *)
Theorem C108_range : forall sq b l chn f X dflt m M, root_like sq ->
  ((forall z, within (radius (kt_of b)) (node_position z) X -> m <= value_or l chn z dflt /\ value_or l chn z dflt <= M) ->
     m <= sample_node sq (kt_of b) l chn X dflt /\ sample_node sq (kt_of b) l chn X dflt <= M) /\
  ((forall z, within (radius (kt_of b)) (face_centre f z) X -> m <= value_or l chn z dflt /\ value_or l chn z dflt <= M) ->
     m <= sample_face sq (kt_of b) l chn f X dflt /\ sample_face sq (kt_of b) l chn f X dflt <= M).
Proof.
  intros sq b l chn f X dflt m M R. split; intros H.
  - eapply (bounds sq R _ _ _ X _ node_position); [apply collocated_placed| |exact H].
    intros o _. apply (colloc_nodes (map (base_node (lerp_degree (kt_of b))) X) o).
  - eapply (bounds sq R _ _ _ X _ (face_centre f)); [apply face_placed| |exact H].
    intros o Lo. apply face_nodes. exact Lo.
Qed.
Print Assumptions C108_range.

(** The four-point reading at the centre of a face is the general sample there. *)
Theorem C108_four : forall sq l off c f dflt, (f < length c)%nat ->
  Forall2 Qeq (ipack_face l off c f dflt) (ipack sq l off (face_centre f c) dflt).
Proof.
  intros sq l off c f dflt F. unfold ipack_face, ipack. unfold face_centre at 2. rewrite centre_length.
  assert (K : Forall (fun d => (d < length c)%nat) (seq 0 (length c))).
  { apply Forall_forall. intros d H. apply in_seq in H. lia. }
  induction K; cbn [map]; constructor; [|assumption]. apply four_ok; assumption.
Qed.
Print Assumptions C108_four.

(** Component d of a property, sampled by name: the component of the packed sample when the
    property starts at a multiple of the dimension. *)
Theorem C108_component_partial : forall sq l off size d X dflt,
  Nat.modulo off (length X) = 0%nat -> (d < length X)%nat -> (d < size)%nat ->
  isample_prop sq l off size d X dflt = nth d (ipack sq l off X dflt) 0.
Proof.
  intros sq l off size d X dflt M D S. unfold isample_prop, isample_channel, ipack.
  destruct (Nat.leb_spec size d); [lia|].
  assert (E : Nat.modulo (off + d) (length X) = d).
  { rewrite Nat.add_mod by lia. rewrite M, Nat.add_0_l, Nat.mod_mod by lia. apply Nat.mod_small. exact D. }
  rewrite E. set (F := fun d => sample_face sq Linear l (off + d) d X dflt).
  rewrite (nth_indep _ 0 (F 0%nat)) by (rewrite map_length, seq_length; exact D).
  rewrite map_nth, seq_nth by exact D. reflexivity.
Qed.
Print Assumptions C108_component_partial.

(** Not otherwise: behind a one-channel "sdf", the first component of a velocity that is linear
    over the faces is sampled as if it lived on other faces. *)
Definition behind_sdf : levelset :=
  Ls (fun k => if list_eq_dec Z.eq_dec k [0; 0; 0]%Z then Some 0%nat else None)
     (fun chn _ cno => if Nat.eqb chn 1 then inject_Z (Z.div cno 64) else 0).
Theorem C108_component_refuted : exists l off size d X dflt,
  (d < length X)%nat /\ (d < size)%nat /\
  ~ isample_prop coarse_root l off size d X dflt == nth d (ipack coarse_root l off X dflt) 0.
Proof.
  exists behind_sdf, 1%nat, 3%nat, 0%nat, [2; 3; 3], 0. split; [cbn; lia|]. split; [lia|].
  vm_compute. discriminate.
Qed.
Print Assumptions C108_component_refuted.

(** A level set over the blocks (0,0,0) and (-8,0,0), the sdf channel of which is 1 + 2x - y + 3z,
    the faces of channels 1 to 3 the velocity (x, y, x + z) at their centres. *)
Definition demo : levelset :=
  Ls (fun k => if list_eq_dec Z.eq_dec k [0; 0; 0]%Z then Some 0%nat
               else if list_eq_dec Z.eq_dec k [-8; 0; 0]%Z then Some 1%nat else None)
     (fun chn b cno =>
        let x := inject_Z (Z.div cno 64 - (if Nat.eqb b 1 then 8 else 0)) in
        let y := inject_Z (Z.modulo (Z.div cno 8) 8) in
        let z := inject_Z (Z.modulo cno 8) in
        match chn with
        | 0%nat => affine 1 [2; -(1); 3] [x; y; z]
        | 1%nat => x
        | 2%nat => y
        | _ => affine 0 [1; 0; 1] [x + (1#2); y + (1#2); z]
        end).
Example C108_ex :
  value_or demo 0 (sum [-8; 0; 0] [7; 2; 5])%Z 99 = 12
  /\ value_or demo 0 [8; 2; 5]%Z 99 = 99
  /\ Qred (sample_node coarse_root Quadratic demo 0 [-1#4; 7#2; 5#3] 99) = 2
  /\ map Qred (ipack coarse_root demo 1 [-1#4; 7#2; 5#3] 99) = [-1#4; 7#2; 17#12]
  /\ map Qred (ipack_face demo 1 [0; 3; 4]%Z 0 99) = [0; 7#2; 9#2]
  /\ map Qred (ipack coarse_root demo 1 (face_centre 0 [0; 3; 4]%Z) 99) = [0; 7#2; 9#2].
Proof. vm_compute. repeat split. Qed.
