(* The dense grid. *)
From Coq Require Import Reals.
From Verif Require Import Prelude PdModel PdSpec.
Local Open Scope Z_scope.

Definition off (ws idx : list Z) : Z := fold_right Z.add 0 (map (fun p => fst p * snd p) (combine idx ws)).
Lemma off_range dims idx : in_domain idx dims -> 0 <= off (excl_suffix_prod dims) idx < volume dims.
Proof.
  intros H. induction H as [|i n idx' dims' Hi H IH]; [cbn; lia|].
  cbn [excl_suffix_prod off combine map fold_right volume fst snd] in *.
  change (fold_right Z.mul 1 dims') with (volume dims') in *. change (prod dims') with (volume dims').
  change (fold_right Z.add 0 (map (fun p => fst p * snd p) (combine idx' (excl_suffix_prod dims')))) with (off (excl_suffix_prod dims') idx') in *.
  nia.
Qed.
Lemma digits P i i' o o' : 0 <= o < P -> 0 <= o' < P -> i * P + o = i' * P + o' -> i = i' /\ o = o'.
Proof.
  intros H H' E. assert (~ i < i') by (intros C; assert ((i + 1) * P <= i' * P) by nia; lia).
  assert (~ i' < i) by (intros C; assert ((i' + 1) * P <= i * P) by nia; lia).
  assert (i = i') by lia. subst. split; lia.
Qed.
Lemma off_inj dims idx : in_domain idx dims -> forall idx', in_domain idx' dims ->
  off (excl_suffix_prod dims) idx = off (excl_suffix_prod dims) idx' -> idx = idx'.
Proof.
  intros H. induction H as [|i n idx dims Hi H IH]; intros idx' H'; inversion H'; subst; [reflexivity|].
  intros E. cbn [excl_suffix_prod off combine map fold_right fst snd] in E.
  change (prod dims) with (volume dims) in E.
  change (fold_right Z.add 0 (map (fun p => fst p * snd p) (combine idx (excl_suffix_prod dims)))) with (off (excl_suffix_prod dims) idx) in E.
  match type of E with _ = ?y * _ + fold_right Z.add 0 (map _ (combine ?l _)) =>
    change (fold_right Z.add 0 (map (fun p => fst p * snd p) (combine l (excl_suffix_prod dims)))) with (off (excl_suffix_prod dims) l) in E;
    pose proof (off_range dims idx H) as R1; assert (R2 : 0 <= off (excl_suffix_prod dims) l < volume dims) by (now apply off_range);
    destruct (digits (volume dims) i y _ _ R1 R2 E) as [-> E2] end.
  f_equal. now apply IH.
Qed.

(* two dimensions *)
Definition wf (n m : Z) (g : dense) : Prop := weights g = excl_suffix_prod [n; m] /\ dims g = [n; m].
Lemma dom2 i j n m : in_domain [i; j] [n; m] <-> 0 <= i < n /\ 0 <= j < m.
Proof.
  split.
  - intros H. inversion H as [|? ? ? ? ? H2]; subst. inversion H2; subst. tauto.
  - intros []. repeat constructor; lia.
Qed.
Lemma offset_wf n m g i j : wf n m g -> offset g [i; j] = i * m + j.
Proof. intros [W _]. unfold offset. rewrite W. cbn. lia. Qed.
Lemma get_set n m g i j v g' : wf n m g -> 0 <= i < n -> 0 <= j < m -> set g [i; j] v = Some g' ->
  wf n m g' /\ length (mem g') = length (mem g) /\ get g' [i; j] = Some v /\
  forall i' j', 0 <= i' < n -> 0 <= j' < m -> (i', j') <> (i, j) -> get g' [i'; j'] = get g [i'; j'].
Proof.
  intros W Hi Hj E. unfold set in E. rewrite (offset_wf n m g i j W) in E.
  destruct (i * m + j <? 0) eqn:L; [nia|].
  destruct (upd (mem g) (Z.to_nat (i * m + j)) v) as [me|] eqn:U; [|discriminate].
  cbn in E. injection E as <-.
  assert (W' : wf n m (Dense (weights g) (dims g) me)) by exact W.
  split; [exact W'|]. split; [cbn; eapply upd_length; eauto|]. split.
  - unfold get. rewrite (offset_wf n m _ i j W'), L. cbn. eapply upd_nth_eq; eauto.
  - intros i' j' Hi' Hj' Hn. unfold get. rewrite (offset_wf n m _ i' j' W'), (offset_wf n m _ i' j' W).
    destruct (i' * m + j' <? 0) eqn:L'; [reflexivity|]. cbn.
    eapply upd_nth_neq; [eauto|].
    intros C. assert (X : i' * m + j' = i * m + j) by nia. destruct (digits m i' i j' j Hj' Hj X). apply Hn. congruence.
Qed.
Lemma make_wf alloc n m v : wf n m (make_grid alloc [n; m] v).
Proof. split; reflexivity. Qed.
Lemma get_make alloc n m v i j c : get (make_grid alloc [n; m] v) [i; j] = Some c -> c = v.
Proof.
  unfold get. destruct (_ <? 0); [discriminate|]. cbn. intros H. apply nth_error_In in H. now apply repeat_spec in H.
Qed.
(* big enough a storage *)
Definition roomy (n m : Z) (g : dense) : Prop := wf n m g /\ n * m <= Z.of_nat (length (mem g)).
Lemma get_roomy n m g i j : roomy n m g -> 0 <= i < n -> 0 <= j < m -> exists c, get g [i; j] = Some c.
Proof.
  intros [W L] Hi Hj. unfold get. rewrite (offset_wf _ _ _ _ _ W).
  destruct (i * m + j <? 0) eqn:E; [nia|]. apply nth_error_lt_some. nia.
Qed.
Lemma set_roomy n m g i j v : roomy n m g -> 0 <= i < n -> 0 <= j < m -> exists g', set g [i; j] v = Some g' /\ roomy n m g'.
Proof.
  intros [W L] Hi Hj. unfold set. rewrite (offset_wf _ _ _ _ _ W).
  destruct (i * m + j <? 0) eqn:E; [nia|].
  destruct (upd_some (mem g) (Z.to_nat (i * m + j)) v ltac:(nia)) as [me U]. rewrite U.
  eexists. split; [reflexivity|]. split; [exact W|]. cbn. rewrite (upd_length _ _ _ _ U). exact L.
Qed.

(* ranges of integers *)
Lemma in_zrange lo hi k : In k (zrange lo hi) <-> lo <= k < hi.
Proof.
  unfold zrange. rewrite in_map_iff. split.
  - intros (x & <- & H). apply in_seq in H. lia.
  - intros H. exists (Z.to_nat (k - lo)). rewrite in_seq. lia.
Qed.
