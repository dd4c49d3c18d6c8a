(** * C113: dense fields are row-major arrays *)
From Coq Require Import Arith List Lia.
From Verif Require Import DfModel DfSpec DfProofs.
Import ListNotations.

Section Props.
Context {T : Type}.
Variable junk : T.

(** [f] has the shape [s]: it was constructed with it or reshaped to it, and written to since. *)
Inductive shaped : list nat -> dense (T := T) -> Prop :=
  | sh_construct s : shaped s (construct junk s)
  | sh_reshape s s' f : shaped s f -> shaped s' (reshape junk f s')
  | sh_set s f is v f' : shaped s f -> set f is v = Some f' -> shaped s f'.
Lemma shaped_inv s f : shaped s f -> shape f = snd (bases s) /\ length (field f) = product s.
Proof.
  induction 1 as [s|s s' f H [E1 E2]|s f is v f' H [E1 E2] E].
  - simpl. rewrite repeat_length. split; [auto|apply shape_size_product].
  - simpl. rewrite app_length, firstn_length, repeat_length, bases_fst. split; [auto|lia].
  - unfold set in E. destruct (linearOffset f is) as [o|]; [|discriminate].
    destruct (Nat.ltb_spec o (length (field f))) as [L|]; [|discriminate]. injection E as <-. cbn [field shape]. split; [auto|].
    rewrite <- E2. apply set_length. exact L.
Qed.

(** dims and size are those of the shape. *)
Theorem C113_size s f : shaped s f -> dims f = length s /\ size f = product s.
Proof.
  intros H. destruct (shaped_inv _ _ H) as [E1 E2]. unfold dims, size. rewrite E1, bases_length. split; [simpl; lia|auto].
Qed.
(** The offset of valid indices is their place in row-major order, inside the field. *)
Theorem C113_offset s f is : shaped s f -> valid s is ->
  linearOffset f is = Some (rank 0 s is) /\ rank 0 s is < size f.
Proof.
  intros H V. destruct (shaped_inv _ _ H) as [E1 E2]. unfold linearOffset, size. rewrite E1, E2, rank_lin by auto.
  rewrite offset_ok by (rewrite (valid_length _ _ V); auto). split; [reflexivity|]. apply lin_lt; auto.
Qed.
(** Every element is that of exactly one list of valid indices. *)
Theorem C113_bijection s f o : shaped s f -> o < size f ->
  exists is, (valid s is /\ linearOffset f is = Some o) /\
    forall js, valid s js -> linearOffset f js = Some o -> js = is.
Proof.
  intros H L. destruct (shaped_inv _ _ H) as [E1 E2]. unfold size in L. rewrite E2 in L.
  destruct (lin_surj s o L) as (is & V & E). exists is. split; [split; [auto|]|].
  - unfold linearOffset. rewrite E1, offset_ok by (rewrite (valid_length _ _ V); auto). congruence.
  - intros js Vj Ej. unfold linearOffset in Ej. rewrite E1, offset_ok in Ej by (rewrite (valid_length _ _ Vj); auto).
    inversion Ej. apply (lin_inj s); auto. congruence.
Qed.
(** Fewer indices give the first element of the sub-array, more read past the shape. *)
Theorem C113_prefix s f is : shaped s f ->
  (length is <= length s -> linearOffset f is = linearOffset f (is ++ repeat 0 (length s - length is))) /\
  (length s < length is -> linearOffset f is = None).
Proof.
  intros H. destruct (shaped_inv _ _ H) as [E1 E2]. unfold linearOffset. rewrite E1. split; intros L.
  - rewrite !offset_ok, lin_zeros; auto. rewrite app_length, repeat_length. lia.
  - apply offset_long; auto.
Qed.
(** Writing at valid indices succeeds, is read back, and changes no other element. *)
Theorem C113_write s f is v : shaped s f -> valid s is ->
  exists f', set f is v = Some f' /\ get f' is = Some v /\
    forall js, valid s js -> js <> is -> get f' js = get f js.
Proof.
  intros H V. destruct (C113_offset s f is H V) as [E L]. unfold set. rewrite E. unfold size in L.
  rewrite (proj2 (Nat.ltb_lt _ _)) by auto. eexists. split; [reflexivity|]. split.
  - unfold get, linearOffset in *. cbn [field shape]. rewrite E, nth_set by auto. destruct (Nat.eq_dec _ _); [reflexivity|congruence].
  - intros js Vj N. destruct (C113_offset s f js H Vj) as [Ej Lj]. unfold get, linearOffset in *. cbn [field shape]. rewrite Ej, nth_set by auto.
    destruct (Nat.eq_dec (rank 0 s js) (rank 0 s is)) as [X|]; [|reflexivity]. exfalso. apply N.
    rewrite !rank_lin in X by auto. apply (lin_inj s); auto.
Qed.
(** Reshaping to a shape with as many elements keeps them in row-major order. *)
Theorem C113_reshape s f s' is is' : shaped s f -> product s' = product s -> valid s is -> valid s' is' ->
  rank 0 s is = rank 0 s' is' -> get (reshape junk f s') is' = get f is.
Proof.
  intros H P V V' R. destruct (C113_offset s f is H V) as [E L].
  destruct (C113_offset s' (reshape junk f s') is' (sh_reshape _ _ _ H) V') as [E' L'].
  unfold get. rewrite E, E', R. destruct (shaped_inv _ _ H) as [_ E2]. simpl. rewrite bases_fst, P, <- E2, firstn_all, Nat.sub_diag.
  simpl. rewrite app_nil_r. reflexivity.
Qed.
End Props.
Print Assumptions C113_size.
Print Assumptions C113_offset.
Print Assumptions C113_bijection.
Print Assumptions C113_prefix.
Print Assumptions C113_write.
Print Assumptions C113_reshape.

(** Indices are not checked: one past the end of a row is the start of the next. *)
Theorem C113_unchecked_refuted : exists (f : dense (T := nat)) f',
  shaped 0 [2; 3] f /\ ~ valid [2; 3] [0; 3] /\ set f [0; 3] 7 = Some f' /\ get f [1; 0] = Some 0 /\ get f' [1; 0] = Some 7.
Proof.
  exists (construct 0 [2; 3]). eexists. split; [constructor|]. split.
  - intros H. inversion H; subst. inversion H5; subst. lia.
  - repeat split.
Qed.
Print Assumptions C113_unchecked_refuted.

Example C113_ex : exists f, shaped 0 [2; 3; 4] f /\ valid [2; 3; 4] [1; 2; 3] /\ linearOffset f [1; 2; 3] = Some 23 /\
  linearOffset f [1; 2] = Some 20 /\ size (reshape 0 f [4; 6]) = 24.
Proof. exists (construct 0 [2; 3; 4]). split; [constructor|]. split; [repeat constructor|]. repeat split. Qed.
