(** * C110: cells and bounding box of a level set *)
From Coq Require Import ZArith QArith List Lia.
From Verif Require Import KernModel LcModel LcSpec LcProofs.
Import ListNotations.

(** indexToCell returns the one cell whose position has the given position within half a cell. *)
Theorem C110_cell cate x X : indexToCell cate x = X <-> in_unit_box (cellToIndex cate X) x.
Proof.
  destruct cate; simpl; unfold in_unit_box;
    first [apply (map_iff (fun m v => m - (1#2) <= v /\ v < m + (1#2))%Q); intros; apply centred_iff
          |apply (map_iff (fun m v => m - (1#2) <= v /\ v < m + (1#2))%Q); intros; apply nodal_iff].
Qed.
Print Assumptions C110_cell.
(** The same among the faces of one orientation. *)
Theorem C110_face x X f : indexToCell_face x f = X <-> in_unit_box (cellToIndex_face X f) x.
Proof.
  unfold indexToCell_face, cellToIndex_face, in_unit_box.
  apply (init_iff (fun m v => m - (1#2) <= v /\ v < m + (1#2))%Q).
  intros d v z. destruct (Nat.eqb d f); simpl; [apply nodal_iff|apply centred_iff].
Qed.
Print Assumptions C110_face.
(** A cell is found again at its position. *)
Theorem C110_back cate X : indexToCell cate (cellToIndex cate X) = X.
Proof. apply C110_cell, box_self. Qed.
Print Assumptions C110_back.
Theorem C110_face_back X f : indexToCell_face (cellToIndex_face X f) f = X.
Proof. apply C110_face, box_self. Qed.
Print Assumptions C110_face_back.
(** Where faces lie: half a cell in from the lower corner in all directions but that of the face. *)
Theorem C110_face_position X f d : (d < length X)%nat ->
  nth d (cellToIndex_face X f) 0%Q = (if Nat.eqb d f then inject_Z (nth d X 0%Z) else inject_Z (nth d X 0%Z) + (1#2))%Q.
Proof.
  unfold cellToIndex_face, init. intros H.
  assert (E : forall k (Y : list Z), (d < length Y)%nat ->
    nth d (map (fun dv => (fun d v => if negb (Nat.eqb d f) then inject_Z v + (1#2) else inject_Z v)%Q (fst dv) (snd dv))
      (combine (seq k (length Y)) Y)) 0%Q =
    (if Nat.eqb (k + d) f then inject_Z (nth d Y 0%Z) else inject_Z (nth d Y 0%Z) + (1#2))%Q).
  { clear. induction d as [|d IH]; intros k [|y Y] L; simpl in L; try lia; simpl.
    - rewrite Nat.add_0_r. destruct (Nat.eqb k f); reflexivity.
    - rewrite IH by lia. replace (S k + d)%nat with (k + S d)%nat by lia. reflexivity. }
  rewrite E by exact H. reflexivity.
Qed.
Print Assumptions C110_face_position.
(** Without the orientation, a face of a staggered level set is found in another cell. *)
Theorem C110_staggered_refuted : exists X f, indexToCell staggered (cellToIndex_face X f) <> X.
Proof. exists [0; 0; 0]%Z, 0%nat. vm_compute. discriminate. Qed.
Print Assumptions C110_staggered_refuted.

Example C110_ex_cell :
  indexToCell cellcentered [-(1#4); 5#2]%Q = [-1; 2]%Z /\ indexToCell collocated [-(1#4); 5#2]%Q = [0; 3]%Z /\
  indexToCell_face [-(1#4); 5#2]%Q 0 = [0; 2]%Z.
Proof. vm_compute. repeat split. Qed.
