(** * C103: views of degrees of freedom *)

From Coq Require Import List Arith Bool Lia Permutation.
From Verif Require Import DvModel DvSpec DvProofs.
Import ListNotations.

(** Reading degree of freedom e * dim + d, through get or through an iterator, yields component d
    of entry e; beyond numEntries the access is out of bounds. *)
Theorem C103_read : forall A (m : mem A) v e d, fits v -> d < v_dim v ->
  (e * v_dim v + d < numEntries v ->
     get m v Scalar (e * v_dim v + d) = Some (Sc (m (component v e d))) /\
     dereference v (e * v_dim v + d) = Some (component v e d)) /\
  (numEntries v <= e * v_dim v + d ->
     get m v Scalar (e * v_dim v + d) = None /\ dereference v (e * v_dim v + d) = None).
Proof.
  intros A m v e d Fv Hd. rewrite get_scalar, dereference_dof by exact Fv. rewrite dof_component by exact Hd.
  destruct (Nat.ltb_spec (e * v_dim v + d) (numEntries v)); split; intros; try lia; split; reflexivity.
Qed.
Print Assumptions C103_read.

(** Reading entry e as a vector yields its components in order. *)
Theorem C103_read_vector : forall A (m : mem A) v e, fits v -> (e + 1) * v_dim v <= numEntries v ->
  exists xs, get m v Vector e = Some (Ve xs) /\ length xs = v_dim v /\
    forall d, d < v_dim v -> nth_error xs d = Some (m (component v e d)).
Proof.
  intros A m v e Fv He. exists (map m (row v e)). split; [apply read_row; assumption |]. split.
  - unfold row. rewrite !map_length, seq_length. reflexivity.
  - intros d Hd. rewrite (map_nth_error m d (row v e) (nth_row v e d Hd)). reflexivity.
Qed.
Print Assumptions C103_read_vector.

(** Writing degree of freedom e * dim + d changes component d of entry e and nothing else. *)
Theorem C103_write : forall A (m : mem A) v e d x, fits v -> d < v_dim v -> e * v_dim v + d < numEntries v ->
  exists m', set m v (e * v_dim v + d) (Sc x) = Some m' /\
    m' (component v e d) = x /\ (forall l, l <> component v e d -> m' l = m l).
Proof.
  intros A m v e d x Fv Hd Hk. rewrite set_scalar, dereference_dof, dof_component by assumption.
  destruct (Nat.ltb_spec (e * v_dim v + d) (numEntries v)); [| lia].
  eexists. split; [reflexivity |]. split; [apply put_same |]. intros l. apply put_other.
Qed.
Print Assumptions C103_write.

(** Writing entry e as a vector changes its components and nothing else.  Missing: views of a
    channel of scalars whose dimension is not the one deduced from the structure (refuted below). *)
Theorem C103_write_vector_partial : forall A (m : mem A) v e xs, fits v -> (e + 1) * v_dim v <= numEntries v ->
  length xs = v_dim v -> (v_entry v = Vector \/ v_chn v = None \/ v_ded v = v_dim v) ->
  exists m', set m v e (Ve xs) = Some m' /\
    (forall d, d < v_dim v -> nth_error xs d = Some (m' (component v e d))) /\
    (forall l, (forall d, d < v_dim v -> l <> component v e d) -> m' l = m l).
Proof.
  intros A m v e xs Fv He Hl Hs. rewrite set_vector, refs_row; try assumption.
  2:{ intros (S1 & S2 & S3). destruct Hs as [H | [H | H]]; congruence. }
  destruct (stores_some (row v e) xs m (row_nodup v e)) as (m' & E & H1 & H2).
  { unfold row. rewrite map_length, seq_length. auto. }
  exists m'. split; [exact E |]. split.
  - intros d Hd. apply H1. apply nth_row. exact Hd.
  - intros l H. apply H2. intros Hin. apply in_row in Hin. destruct Hin as (d & Hd & ->). exact (H d Hd eq_refl).
Qed.
Print Assumptions C103_write_vector_partial.

(** dof_view<space, 3>(t, chn) over a TileVector of scalars: writing entry 1 as a vector and
    reading it back yields the old values, since the three values land in elements 3, 4, 5 of the
    first channel; for the last entries the write leaves the structure. *)
Theorem C103_write_vector_refuted : exists v : view, fits v /\ v_dim v = 3 /\
  (exists (m m' : mem nat) e, (e + 1) * v_dim v <= numEntries v /\ set m v e (Ve [7; 8; 9]) = Some m' /\
     get m' v Vector e = get m v Vector e /\ get m v Vector e <> Some (Ve [7; 8; 9])) /\
  (exists (m : mem nat) e, (e + 1) * v_dim v <= numEntries v /\ set m v e (Ve [7; 8; 9]) = None).
Proof.
  exists (View 0 3 6 Scalar 3 1 (Some 0)). split; [unfold fits; cbn; repeat split; try lia; discriminate |].
  split; [reflexivity |]. split.
  - exists (fun _ => 0). eexists. exists 1. split; [cbn; lia |]. split; [reflexivity |]. split; [reflexivity | discriminate].
  - exists (fun _ => 0), 5. split; [cbn; lia | reflexivity].
Qed.
Print Assumptions C103_write_vector_refuted.

(** Iterating from begin to end visits the degrees of freedom in order, each place once. *)
Theorem C103_iterate : forall v, fits v -> exists ls, iterate v = map Some ls /\ length ls = numEntries v /\ NoDup ls /\
  (forall k l, nth_error ls k = Some l -> is_dof v k l) /\ (forall l, In l ls <-> owns v l).
Proof.
  intros v Fv. pose proof (proj1 Fv) as Hd. exists (map (dof v) (seq 0 (numEntries v))).
  split; [| split; [| split; [| split]]].
  - unfold iterate. rewrite map_map. apply map_ext_in. intros k Hk. apply in_seq in Hk.
    rewrite dereference_dof by exact Fv. destruct (Nat.ltb_spec k (numEntries v)); [reflexivity | lia].
  - rewrite map_length, seq_length. reflexivity.
  - apply FinFun.Injective_map_NoDup; [intros a b H; exact (dof_inj v a b Hd H) | apply seq_NoDup].
  - intros k l H. assert (Hk : k < numEntries v).
    { rewrite <- (seq_length (numEntries v) 0), <- (map_length (dof v)). apply nth_error_Some. congruence. }
    apply is_dof_dof; [exact Hd |]. erewrite map_nth_error in H; [injection H as <-; reflexivity |].
    rewrite (nth_error_nth' _ 0) by (rewrite seq_length; exact Hk). rewrite seq_nth by exact Hk. reflexivity.
  - intros l. rewrite in_map_iff. split.
    + intros (k & <- & Hk). apply in_seq in Hk. exists k. split; [lia | apply is_dof_dof; auto].
    + intros (k & Hk & H). apply is_dof_dof in H; [| exact Hd]. exists k. split; [auto | apply in_seq; lia].
Qed.
Print Assumptions C103_iterate.

(** DofCompwiseOp: in every order of execution, each output degree of freedom is the operation on
    the input ones as they were before the call, and nothing else changes, also when an input is
    the output itself. *)
Theorem C103_compwise : forall A (op : A -> A -> A) va vb vc order (m : mem A),
  fits va -> fits vb -> fits vc ->
  numEntries va = numEntries vc -> numEntries vb = numEntries vc ->
  (same_dofs va vc \/ apart va vc) -> (same_dofs vb vc \/ apart vb vc) ->
  Permutation order (seq 0 (numEntries va)) ->
  exists m', compwise op va vb vc order m = Done m' /\
    (forall k la lb lc, k < numEntries vc -> is_dof va k la -> is_dof vb k lb -> is_dof vc k lc ->
       m' lc = op (m la) (m lb)) /\
    (forall l, ~ owns vc l -> m' l = m l).
Proof.
  intros A op va vb vc order m Fa Fb Fc Ea Eb Ca Cb Hp.
  destruct (compwise_done op va vb vc order m Fa Fb Fc Ea Eb Ca Cb Hp) as (m' & E & H1 & H2).
  exists m'. split; [exact E |]. split.
  - intros k la lb lc Hk Ha Hb Hc. apply is_dof_dof in Ha, Hb, Hc; [| apply (proj1 Fc) | apply (proj1 Fb) | apply (proj1 Fa)].
    subst. apply H1. exact Hk.
  - intros l Hl. apply H2. intros k Hk ->. apply Hl. exists k. split; [exact Hk | apply is_dof_dof; [apply (proj1 Fc) | reflexivity]].
Qed.
Print Assumptions C103_compwise.

(** Views of different numbers of degrees of freedom: the call throws. *)
Theorem C103_mismatch : forall A (op : A -> A -> A) (op1 : A -> A) va vb vc order (m : mem A),
  (numEntries va <> numEntries vb \/ numEntries va <> numEntries vc <-> compwise op va vb vc order m = Throws) /\
  (numEntries va <> numEntries vb <-> compwise1 op1 va vb order m = Throws).
Proof.
  intros A op op1 va vb vc order m. unfold compwise, compwise1, finish. split.
  - destruct (Nat.eqb_spec (numEntries va) (numEntries vb)), (Nat.eqb_spec (numEntries va) (numEntries vc)); cbn [andb];
      split; intros H; auto; try (destruct (launch _ _ _); discriminate); destruct H; contradiction.
  - destruct (Nat.eqb_spec (numEntries va) (numEntries vb)); split; intros H; auto; try contradiction.
    destruct (launch _ _ _); discriminate.
Qed.
Print Assumptions C103_mismatch.

(** The unary operators. *)
Theorem C103_unary : forall A (op : A -> A) va vb order (m : mem A),
  fits va -> fits vb -> numEntries va = numEntries vb -> (same_dofs va vb \/ apart va vb) ->
  Permutation order (seq 0 (numEntries va)) ->
  exists m', compwise1 op va vb order m = Done m' /\
    (forall k la lb, k < numEntries vb -> is_dof va k la -> is_dof vb k lb -> m' lb = op (m la)) /\
    (forall l, ~ owns vb l -> m' l = m l).
Proof.
  intros A op va vb order m Fa Fb Ea Ca Hp.
  destruct (compwise1_done op va vb order m Fa Fb Ea Ca Hp) as (m' & E & H1 & H2).
  exists m'. split; [exact E |]. split.
  - intros k la lb Hk Ha Hb. apply is_dof_dof in Ha, Hb; [| apply (proj1 Fb) | apply (proj1 Fa)]. subst. apply H1. exact Hk.
  - intros l Hl. apply H2. intros k Hk ->. apply Hl. exists k. split; [exact Hk | apply is_dof_dof; [apply (proj1 Fb) | reflexivity]].
Qed.
Print Assumptions C103_unary.

(** DofFill over all degrees of freedom. *)
Theorem C103_fill : forall A (x : A) v order m, fits v -> Permutation order (seq 0 (numEntries v)) ->
  exists m', launch (fill v x) order m = Some m' /\
    (forall l, owns v l -> m' l = x) /\ (forall l, ~ owns v l -> m' l = m l).
Proof.
  intros A x v order m Fv Hp. destruct (fill_done x v order m Fv Hp) as (m' & E & H1 & H2).
  exists m'. split; [exact E |]. split.
  - intros l (k & Hk & H). apply is_dof_dof in H; [| apply (proj1 Fv)]. subst. apply H1. exact Hk.
  - intros l Hl. apply H2. intros k Hk ->. apply Hl. exists k. split; [exact Hk | apply is_dof_dof; [apply (proj1 Fv) | reflexivity]].
Qed.
Print Assumptions C103_fill.

(** IdentitySystem::multiply and precondition copy every degree of freedom.  Missing: outputs that
    are channels of scalars (next theorem). *)
Theorem C103_identity_partial : forall A va vb order (m : mem A),
  fits va -> fits vb -> numEntries va = numEntries vb -> v_dim va = v_dim vb ->
  (v_entry vb = Vector \/ v_chn vb = None) -> (same_dofs va vb \/ apart va vb) ->
  Permutation order (seq 0 (v_size vb)) ->
  exists m', identity va vb order m = Done m' /\
    (forall k la lb, k < numEntries vb -> is_dof va k la -> is_dof vb k lb -> m' lb = m la) /\
    (forall l, ~ owns vb l -> m' l = m l).
Proof.
  intros A va vb order m Fa Fb En Ed Hk Hc Hp.
  assert (H : exists m', identity va vb order m = Done m' /\
    (forall k, k < numEntries vb -> m' (dof vb k) = m (dof va k)) /\
    (forall l, (forall k, k < numEntries vb -> l <> dof vb k) -> m' l = m l)).
  { destruct (v_entry vb) eqn:Ev; [| apply identity_vectors; auto].
    destruct Hk as [Hk | Hk]; [discriminate |].
    assert (Es : numEntries vb = v_size vb) by (unfold numEntries; rewrite Hk, Ev; reflexivity).
    rewrite Es. apply identity_scalars; auto; congruence. }
  destruct H as (m' & E & H1 & H2). exists m'. split; [exact E |]. split.
  - intros k la lb Hk' Ha Hb. apply is_dof_dof in Ha, Hb; [| apply (proj1 Fb) | apply (proj1 Fa)]. subst. apply H1. exact Hk'.
  - intros l Hl. apply H2. intros k Hk' ->. apply Hl. exists k. split; [exact Hk' | apply is_dof_dof; [apply (proj1 Fb) | reflexivity]].
Qed.
Print Assumptions C103_identity_partial.

(** With channels of scalars as output, the indices run to size() while set takes degrees of
    freedom: only the first size() of the size() * dim are copied, the others keep their values. *)
Theorem C103_identity_channels : forall A va vb c order (m : mem A),
  fits va -> fits vb -> numEntries va = numEntries vb ->
  v_entry vb = Scalar -> v_chn vb = Some c -> (same_dofs va vb \/ apart va vb) ->
  Permutation order (seq 0 (v_size vb)) ->
  exists m', identity va vb order m = Done m' /\
    (forall k la lb, k < v_size vb -> is_dof va k la -> is_dof vb k lb -> m' lb = m la) /\
    (forall k lb, v_size vb <= k -> is_dof vb k lb -> m' lb = m lb).
Proof.
  intros A va vb c order m Fa Fb En Es Ec Hc Hp.
  destruct (identity_scalars va vb order m Fa Fb En Es Hc Hp) as (m' & E & H1 & H2).
  exists m'. split; [exact E |]. split.
  - intros k la lb Hk Ha Hb. apply is_dof_dof in Ha, Hb; [| apply (proj1 Fb) | apply (proj1 Fa)]. subst. apply H1. exact Hk.
  - intros k lb Hk Hb. apply is_dof_dof in Hb; [| apply (proj1 Fb)]. subst. apply H2.
    intros j Hj H. apply dof_inj in H; [lia | apply (proj1 Fb)].
Qed.
Print Assumptions C103_identity_channels.

Theorem C103_identity_refuted : exists va vb (m : mem nat), fits va /\ fits vb /\
  numEntries va = numEntries vb /\ v_dim va = v_dim vb /\ apart va vb /\
  forall order, Permutation order (seq 0 (v_size vb)) ->
  exists m' k la lb, identity va vb order m = Done m' /\ k < numEntries vb /\
    is_dof va k la /\ is_dof vb k lb /\ m' lb <> m la.
Proof.
  pose (va := View 0 3 2 Scalar 3 1 (Some 0)). pose (vb := View 1 3 2 Scalar 3 1 (Some 0)).
  pose (m := fun l : loc => let '(s, _, _, _) := l in if Nat.eqb s 0 then 5 else 0).
  assert (Fa : fits va) by (unfold fits; cbn; repeat split; try lia; discriminate).
  assert (Fb : fits vb) by (unfold fits; cbn; repeat split; try lia; discriminate).
  assert (Ap : apart va vb).
  { intros l [(k & _ & e & d & _ & _ & H) (k' & _ & e' & d' & _ & _ & H')]. cbn in H, H'. congruence. }
  exists va, vb, m. split; [exact Fa |]. split; [exact Fb |]. split; [reflexivity |]. split; [reflexivity |]. split; [exact Ap |].
  intros order Hp.
  destruct (C103_identity_channels nat va vb 0 order m Fa Fb eq_refl eq_refl eq_refl (or_intror Ap) Hp) as (m' & E & _ & H).
  assert (Hb : is_dof vb 5 (1, 2, 1, 0)) by (exists 1, 2; cbn; repeat split; lia).
  exists m', 5, (0, 2, 1, 0), (1, 2, 1, 0). split; [exact E |]. split; [cbn; lia |].
  split; [exists 1, 2; cbn; repeat split; lia |]. split; [exact Hb |].
  rewrite (H 5 _ ltac:(cbn; lia) Hb). discriminate.
Qed.
Print Assumptions C103_identity_refuted.

(** A vec of another extent: set over channels of scalars writes nothing. *)
Theorem C103_extent_refuted : forall A (m : mem A) v c i xs, v_entry v = Scalar -> v_chn v = Some c ->
  length xs <> v_dim v -> set m v i (Ve xs) = Some m.
Proof.
  intros A m v c i xs Es Ec Hl. unfold set. rewrite Es, Ec. destruct (Nat.eqb_spec (length xs) (v_dim v)); [contradiction | reflexivity].
Qed.
Print Assumptions C103_extent_refuted.

(** The solvers' copies between views: complete when the target holds scalars, plain or in
    channels. *)
Theorem C103_copy_partial : forall A va vb order (m : mem A),
  fits va -> fits vb -> numEntries va = numEntries vb -> v_entry vb = Scalar -> (same_dofs va vb \/ apart va vb) ->
  Permutation order (seq 0 (numEntries vb)) ->
  exists m', copy_dofs va vb order m = Done m' /\
    (forall k la lb, k < numEntries vb -> is_dof va k la -> is_dof vb k lb -> m' lb = m la) /\
    (forall l, ~ owns vb l -> m' l = m l).
Proof.
  intros A va vb order m Fa Fb En Es Hc Hp.
  destruct (copy_scalars va vb order m Fa Fb En Es Hc Hp) as (m' & E & H1 & H2).
  exists m'. split; [exact E |]. split.
  - intros k la lb Hk Ha Hb. apply is_dof_dof in Ha, Hb; [| apply (proj1 Fb) | apply (proj1 Fa)]. subst. apply H1. exact Hk.
  - intros l Hl. apply H2. intros k Hk ->. apply Hl. exists k. split; [exact Hk | apply is_dof_dof; [apply (proj1 Fb) | reflexivity]].
Qed.
Print Assumptions C103_copy_partial.

(** When the target is a structure of vectors of dimension two or more, the indices run past its
    last vector: in every order the copy leaves the structure. *)
Theorem C103_copy_refuted : forall A va vb order (m : mem A), fits vb -> v_entry vb = Vector ->
  1 < v_dim vb -> 0 < v_size vb -> Permutation order (seq 0 (numEntries vb)) ->
  copy_dofs va vb order m = Undefined.
Proof.
  intros A va vb order m Fb Ev Hd Hs Hp. unfold copy_dofs. rewrite (launch_undefined _ (v_size vb)); [reflexivity | |].
  - intros m0. unfold assign. rewrite Ev, get_vector. unfold loads. destruct (places (refs va (v_size vb))); [| reflexivity].
    apply vector_write_outside; [lia | exact Ev | lia].
  - apply (Permutation_in _ (Permutation_sym Hp)). apply in_seq. unfold numEntries. rewrite Ev. destruct (v_chn vb); cbn; nia.
Qed.
Print Assumptions C103_copy_refuted.

(** ** Concrete cases *)

(** p = p + r in place over a TileVector of 2 entries with 4 channels: p is channels 0 and 1,
    r a separate array of vectors. *)
Definition ex_p := View 0 4 2 Scalar 2 1 (Some 0).
Definition ex_r := View 1 1 2 Vector 2 2 None.
Example C103_ex :
  fits ex_p /\ fits ex_r /\ numEntries ex_r = numEntries ex_p /\ same_dofs ex_p ex_p /\ apart ex_r ex_p /\
  match compwise Nat.add ex_p ex_r ex_p [3; 1; 0; 2] (fun l => let '(s, c, e, d) := l in 100 * s + 10 * c + 4 * e + d) with
  | Done m' => map m' [(0, 0, 0, 0); (0, 1, 0, 0); (0, 0, 1, 0); (0, 1, 1, 0); (0, 2, 0, 0)] = [100; 111; 108; 119; 20]
  | _ => False end.
Proof.
  split; [unfold fits; cbn; repeat split; try lia; discriminate |].
  split; [unfold fits; cbn; repeat split; try lia |].
  split; [reflexivity |]. split; [intros k l _; tauto |]. split; [| reflexivity].
  intros l [(k & _ & e & d & _ & _ & H) (k' & _ & e' & d' & _ & _ & H')]. cbn in H, H'. congruence.
Qed.

Example C103_ex_vector : get (fun l : loc => let '(s, c, e, d) := l in 10 * c + e) (View 0 4 5 Scalar 3 3 (Some 1)) Vector 2
  = Some (Ve [12; 22; 32]) /\
  match set (fun _ : loc => 0) (View 0 4 5 Scalar 3 3 (Some 1)) 2 (Ve [7; 8; 9]) with
  | Some m' => get m' (View 0 4 5 Scalar 3 3 (Some 1)) Scalar 7 = Some (Sc 8) | None => False end.
Proof. split; reflexivity. Qed.

Example C103_ex_identity :
  match identity ex_r (View 2 1 4 Scalar 2 1 None) [2; 0; 3; 1] (fun l => let '(s, c, e, d) := l in 100 * s + 10 * e + d) with
  | Done m' => map m' [(2, 0, 0, 0); (2, 0, 1, 0); (2, 0, 2, 0); (2, 0, 3, 0)] = [100; 101; 110; 111] | _ => False end.
Proof. reflexivity. Qed.
