From Coq Require Import Arith List Lia.
From Verif Require Import DfModel DfSpec.
Import ListNotations.

Lemma bases_fst s : fst (bases s) = product s.
Proof. induction s as [|d s IH]; simpl; auto. rewrite IH. apply Nat.mul_comm. Qed.
Lemma bases_cons d s : snd (bases (d :: s)) = product (d :: s) :: snd (bases s).
Proof. simpl. rewrite bases_fst, (Nat.mul_comm (product s)). reflexivity. Qed.
Lemma bases_length s : length (snd (bases s)) = S (length s).
Proof. induction s as [|d s IH]; auto. rewrite bases_cons. simpl. rewrite IH. reflexivity. Qed.
Lemma bases_nth s k : k <= length s -> nth_error (snd (bases s)) k = Some (product (skipn k s)).
Proof.
  revert k. induction s as [|d s IH]; intros k H.
  - simpl in H. replace k with 0 by lia. reflexivity.
  - rewrite bases_cons. destruct k as [|k]; [reflexivity|]. simpl in *. apply IH. lia.
Qed.
Lemma shape_size_product s : shape_size s = product s.
Proof.
  unfold shape_size. assert (H : forall a, fold_left (fun sz d => sz * d) s a = a * product s).
  { induction s as [|d s IH]; intros a; simpl; [lia|]. rewrite IH. lia. }
  rewrite H. lia.
Qed.

(** Weighted sum along a suffix of the shape. *)
Fixpoint lin (s is : list nat) : nat :=
  match s, is with _ :: s, i :: is => i * product s + lin s is | _, _ => 0 end.
Lemma offset_lin s is : length is <= length s -> forall pre o,
  offset_from (snd (bases (pre ++ s))) (length pre) o is = Some (o + lin s is).
Proof.
  revert is. induction s as [|d s IH]; intros [|x is] H pre o; simpl in H; try lia; cbn [offset_from lin]; try (f_equal; lia).
  rewrite bases_nth by (rewrite app_length; simpl; lia).
  replace (skipn (S (length pre)) (pre ++ d :: s)) with s.
  - replace (pre ++ d :: s) with ((pre ++ [d]) ++ s) by (rewrite <- app_assoc; reflexivity).
    replace (S (length pre)) with (length (pre ++ [d])) by (rewrite app_length; simpl; lia).
    rewrite IH by lia. f_equal. lia.
  - rewrite skipn_app. rewrite skipn_all2 by lia. replace (S (length pre) - length pre) with 1 by lia. reflexivity.
Qed.
Lemma offset_ok s is : length is <= length s -> offset_from (snd (bases s)) 0 0 is = Some (lin s is).
Proof. intros H. apply (offset_lin s is H [] 0). Qed.
Lemma offset_long s is : length s < length is -> offset_from (snd (bases s)) 0 0 is = None.
Proof.
  intros H. assert (G : forall is i o, S (length s) <= i + length is -> is <> [] -> i <= length s ->
      offset_from (snd (bases s)) i o is = None).
  { clear. induction is as [|x is IH]; intros i o H N L; [congruence|]. cbn [offset_from].
    destruct (nth_error (snd (bases s)) (S i)) eqn:E; auto.
    assert (S i < length (snd (bases s))) by (apply nth_error_Some; congruence). rewrite bases_length in H0.
    simpl in H. destruct is as [|y is]; [simpl in H; lia|]. apply IH; [lia|congruence|lia]. }
  apply G; [lia|intros ->; simpl in H; lia|lia].
Qed.

Lemma rank_lin s is acc : valid s is -> rank acc s is = acc * product s + lin s is.
Proof.
  intros H. revert acc. induction H as [|d i s is L H IH]; intros acc; simpl; [lia|]. rewrite IH. lia.
Qed.
Lemma valid_length s is : valid s is -> length is = length s.
Proof. intros H. induction H; simpl; congruence. Qed.
Lemma lin_lt s is : valid s is -> lin s is < product s.
Proof. intros H. induction H as [|d i s is L H IH]; simpl; [lia|]. nia. Qed.
Lemma lin_inj s is : valid s is -> forall js, valid s js -> lin s is = lin s js -> is = js.
Proof.
  intros H. induction H as [|d i s is L H IH]; intros js Hj E; inversion Hj as [|d' y s' ys Ly Hy]; subst; auto.
  simpl in E. pose proof (lin_lt _ _ H). pose proof (lin_lt _ _ Hy).
  assert (i = y) by nia. subst. f_equal. apply IH; auto. lia.
Qed.
Lemma lin_surj s o : o < product s -> exists is, valid s is /\ lin s is = o.
Proof.
  revert o. induction s as [|d s IH]; intros o H; simpl in H.
  - exists []. split; [constructor|simpl; lia].
  - assert (P : product s <> 0) by nia. destruct (IH (o mod product s)) as (is & V & E).
    + apply Nat.mod_upper_bound. auto.
    + exists (o / product s :: is). split.
      * constructor; auto. apply Nat.div_lt_upper_bound; auto. lia.
      * simpl. rewrite E. pose proof (Nat.div_mod o (product s) P). lia.
Qed.
Lemma lin_zeros s is : length is <= length s -> lin s (is ++ repeat 0 (length s - length is)) = lin s is.
Proof.
  revert is. induction s as [|d s IH]; intros [|x is] H; simpl in *; auto; try lia.
  - specialize (IH [] (Nat.le_0_l _)). simpl in IH. rewrite Nat.sub_0_r in IH. rewrite IH. destruct s; reflexivity.
  - rewrite IH by lia. reflexivity.
Qed.
Lemma nth_set {T} (l : list T) o v k : o < length l ->
  nth_error (firstn o l ++ v :: skipn (S o) l) k = if Nat.eq_dec k o then Some v else nth_error l k.
Proof.
  revert o k. induction l as [|h l IH]; intros o k H; simpl in H; [lia|].
  destruct o as [|o].
  - simpl. destruct k; reflexivity.
  - destruct k as [|k]; [reflexivity|]. change (nth_error (h :: l) (S k)) with (nth_error l k).
    change (firstn (S o) (h :: l)) with (h :: firstn o l). change (skipn (S (S o)) (h :: l)) with (skipn (S o) l).
    cbn [app nth_error]. rewrite IH by lia. destruct (Nat.eq_dec k o), (Nat.eq_dec (S k) (S o)); auto; lia.
Qed.
Lemma set_length {T} (l : list T) o v : o < length l -> length (firstn o l ++ v :: skipn (S o) l) = length l.
Proof.
  intros H. rewrite app_length, firstn_length. change (length (v :: skipn (S o) l)) with (S (length (skipn (S o) l))).
  rewrite skipn_length. lia.
Qed.
