From Verif Require Import Prelude BvsModel BvhSpec BvhQSpec BvhQModel.
Open Scope Z_scope.

Lemma size_pos t : 1 <= size t.
Proof. induction t; cbn [size]; lia. Qed.
Lemma spine_nonneg t : 0 <= spine t.
Proof. induction t; cbn [spine]; lia. Qed.
Lemma stored_len t : forall pos par esc, Z.of_nat (length (stored t pos par esc)) = size t.
Proof. induction t as [p|l IHl r IHr]; intros; cbn [stored length size]; [reflexivity|]. rewrite app_length. specialize (IHl (pos + 1) pos (pos + 1 + size l)). specialize (IHr (pos + 1 + size l) pos esc). lia. Qed.
(** the arrays hold the layout *)
Definition laid (b : bvh) (t : tree) (pos par esc : Z) : Prop :=
  forall k l a p, nth_error (stored t pos par esc) k = Some (l, a, p) ->
    levels b (pos + Z.of_nat k) = Some l /\ aux b (pos + Z.of_nat k) = Some a /\ parents b (pos + Z.of_nat k) = Some p.
Lemma laid_leaf b q pos par esc : laid b (Leaf q) pos par esc -> levels b pos = Some 0 /\ aux b pos = Some q /\ parents b pos = Some par.
Proof. intro H. specialize (H 0%nat _ _ _ eq_refl). rewrite Z.add_0_r in H. exact H. Qed.
Lemma laid_node b l r pos par esc : laid b (Node l r) pos par esc ->
  (levels b pos = Some (1 + spine l) /\ aux b pos = Some esc /\ parents b pos = Some par) /\ laid b l (pos + 1) pos (pos + 1 + size l) /\ laid b r (pos + 1 + size l) pos esc.
Proof.
  intro H. split; [|split].
  - specialize (H 0%nat _ _ _ eq_refl). rewrite Z.add_0_r in H. exact H.
  - intros k lv a p E. replace (pos + 1 + Z.of_nat k) with (pos + Z.of_nat (S k)) by lia. apply H. cbn [stored nth_error]. rewrite nth_error_app1; [exact E|]. apply nth_error_some_lt in E. exact E.
  - intros k lv a p E. pose proof (stored_len l (pos + 1) pos (pos + 1 + size l)) as SL. replace (pos + 1 + size l + Z.of_nat k) with (pos + Z.of_nat (S (length (stored l (pos + 1) pos (pos + 1 + size l)) + k))) by lia.
    apply H. cbn [stored nth_error]. rewrite nth_error_app2 by lia. replace (length _ + k - length _)%nat with k by lia. exact E.
Qed.
Lemma laid_sub b t pos par esc t' x p e : sub t pos par esc t' x p e -> laid b t pos par esc -> laid b t' x p e.
Proof. intro H. induction H as [|l r pos par esc t' x p e H IH|l r pos par esc t' x p e H IH]; intro L; [exact L| |]; apply laid_node in L; tauto. Qed.
Lemma sub_rng t pos par esc t' x p e : sub t pos par esc t' x p e -> pos <= x /\ x + size t' <= pos + size t.
Proof. intro H. induction H as [|l r pos par esc t' x p e H IH|l r pos par esc t' x p e H IH]; cbn [size]; [lia| |]; pose proof (size_pos l); pose proof (size_pos r); lia. Qed.
Lemma sub_trans t pos par esc t' x p e : sub t pos par esc t' x p e -> forall t'' x' p' e', sub t' x p e t'' x' p' e' -> sub t pos par esc t'' x' p' e'.
Proof. intro H. induction H; intros; [assumption|apply sub_left; auto|apply sub_right; auto]. Qed.
Lemma sub_uniq t pos par esc t1 x1 p1 e1 : sub t pos par esc t1 x1 p1 e1 -> forall t2 x2 p2 e2, sub t pos par esc t2 x2 p2 e2 -> x1 = x2 -> t1 = t2 /\ p1 = p2 /\ e1 = e2.
Proof.
  intro H. induction H as [t pos par esc|l r pos par esc t1 x1 p1 e1 H IH|l r pos par esc t1 x1 p1 e1 H IH]; intros t2 x2 p2 e2 H2 E; pose proof (size_pos t2).
  - inversion H2; subst; [auto| |]; match goal with X : sub _ _ _ _ _ _ _ _ |- _ => apply sub_rng in X end; pose proof (size_pos l); lia.
  - pose proof (sub_rng _ _ _ _ _ _ _ _ H). pose proof (size_pos t1). inversion H2 as [|? ? ? ? ? ? ? ? ? X|? ? ? ? ? ? ? ? ? X]; subst; [lia|eauto|]. apply sub_rng in X. lia.
  - pose proof (sub_rng _ _ _ _ _ _ _ _ H). pose proof (size_pos t1). pose proof (size_pos l). inversion H2 as [|? ? ? ? ? ? ? ? ? X|? ? ? ? ? ? ? ? ? X]; subst; [lia| |eauto]. apply sub_rng in X. lia.
Qed.
Lemma sub_cover t : forall pos par esc x, pos <= x < pos + size t -> exists t' p e, sub t pos par esc t' x p e.
Proof.
  induction t as [q|l IHl r IHr]; intros pos par esc x H; cbn [size] in H.
  - replace x with pos by lia. do 3 eexists. constructor.
  - destruct (Z.eq_dec x pos) as [->|N]; [do 3 eexists; constructor|]. destruct (Z_lt_ge_dec x (pos + 1 + size l)).
    + destruct (IHl (pos + 1) pos (pos + 1 + size l) x ltac:(lia)) as (t' & p & e & X). do 3 eexists. apply sub_left. exact X.
    + destruct (IHr (pos + 1 + size l) pos esc x ltac:(lia)) as (t' & p & e & X). do 3 eexists. apply sub_right. exact X.
Qed.

(** ** boxes *)
Section Boxes.
Variable dim : nat.
Variable pb : Z -> box.
Definition join (x y : box) : box := merge dim (merge dim x (fst y)) (snd y).
Fixpoint ubox (t : tree) : box := match t with Leaf p => pb p | Node l r => join (ubox l) (ubox r) end.
Definition boxed (b : bvh) (t : tree) (pos par esc : Z) : Prop := forall t' x p e, sub t pos par esc t' x p e -> bvs b x = Some (ubox t').

(** ** traversal *)
Variable b : bvh.
Variable test : box -> bool.
Variable stop : Z -> bool.
Hypothesis mono : forall x y, test x = true \/ test y = true -> test (join x y) = true.
Variable ed : Z.
Notation N := (numNodes b).
Definition body (f : nat) (lv : nat) (node : Z) : option (list Z) :=
  ln <-? descend b test lv node ;;
  match fst ln with
  | O =>
    h <-? hit b test (snd ln) ;;
    if h then p <-? aux b (snd ln) ;; if stop p then Some [p] else r <-? walk b test stop f ed (snd ln + 1) ;; Some (p :: r)
    else walk b test stop f ed (snd ln + 1)
  | S _ => nx <-? aux b (snd ln) ;; walk b test stop f ed nx
  end.
Lemma walk_S f node lv : node <> ed -> node <> N -> levels b node = Some lv -> 0 <= lv -> walk b test stop (S f) ed node = body f (Z.to_nat lv) node.
Proof.
  intros H1 H2 E H. cbn [walk]. replace (node =? ed) with false by lia. replace (node =? N) with false by lia. cbn [orb]. rewrite E. cbn [obind]. replace (lv <? 0) with false by lia. reflexivity.
Qed.
Lemma walk_mono f : forall node out, walk b test stop f ed node = Some out -> walk b test stop (S f) ed node = Some out.
Proof.
  induction f as [|f IH]; intros node out E; [discriminate|]. cbn [walk] in E. remember (S f) as f' eqn:Ef. cbn [walk]. subst f'. destruct ((node =? ed) || (node =? N)); [exact E|].
  destruct (levels b node) as [lv|]; [|discriminate]. cbn [obind] in *. destruct (lv <? 0); [discriminate|]. destruct (descend b test (Z.to_nat lv) node) as [[l nd]|]; [|discriminate]. cbn [obind fst snd] in *. destruct l as [|l].
  - destruct (hit b test nd) as [[]|]; [| |discriminate]; cbn [obind] in *.
    + destruct (aux b nd) as [p|]; [|discriminate]. cbn [obind] in *. destruct (stop p); [exact E|]. destruct (walk b test stop f ed (nd + 1)) as [r|] eqn:Er; [|discriminate]. rewrite (IH _ _ Er). exact E.
    + apply IH. exact E.
  - destruct (aux b nd) as [nx|]; [|discriminate]. cbn [obind] in *. apply IH. exact E.
Qed.
Lemma walk_mono' f g node out : (f <= g)%nat -> walk b test stop f ed node = Some out -> walk b test stop g ed node = Some out.
Proof. induction 1; auto using walk_mono. Qed.
Lemma walk_end f node : (0 < f)%nat -> node = ed \/ node = N -> walk b test stop f ed node = Some [].
Proof. destruct f as [|f]; [lia|]. intros _ H. cbn [walk]. replace ((node =? ed) || (node =? N)) with true by lia. reflexivity. Qed.

Definition hits (t : tree) : list Z := filter (fun p => test (pb p)) (prims t).
Lemma test_ubox t : test (ubox t) = false -> hits t = [].
Proof.
  unfold hits. induction t as [p|l IHl r IHr]; cbn [ubox prims filter]; intro E; [rewrite E; reflexivity|]. rewrite filter_app, IHl, IHr; [reflexivity| |].
  - destruct (test (ubox r)) eqn:X; [rewrite mono in E by auto; discriminate|reflexivity].
  - destruct (test (ubox l)) eqn:X; [rewrite mono in E by auto; discriminate|reflexivity].
Qed.
Lemma until_nil l : until stop l = [] -> l = [].
Proof. destruct l as [|x l]; [reflexivity|]. cbn. destruct (stop x); discriminate. Qed.
Lemma boxed_leaf q pos par esc : boxed b (Leaf q) pos par esc -> bvs b pos = Some (pb q).
Proof. intro H. apply (H _ _ _ _ (sub_self _ _ _ _)). Qed.
Lemma boxed_node l r pos par esc : boxed b (Node l r) pos par esc -> bvs b pos = Some (ubox (Node l r)) /\ boxed b l (pos + 1) pos (pos + 1 + size l) /\ boxed b r (pos + 1 + size l) pos esc.
Proof. intro H. split; [apply (H _ _ _ _ (sub_self _ _ _ _))|]. split; intros t' x p e X; eapply H; [apply sub_left|apply sub_right]; exact X. Qed.
(** walking over a stored subtree reports its hits and goes on behind it *)
Lemma body_ok t : forall pos par esc f out, laid b t pos par esc -> boxed b t pos par esc -> (esc = pos + size t \/ (esc = ed /\ pos + size t = N)) ->
  (ed < pos \/ pos + size t <= ed) -> pos + size t <= N -> (0 < f)%nat -> walk b test stop f ed (pos + size t) = Some (until stop out) ->
  body (f + Z.to_nat (size t)) (Z.to_nat (spine t)) pos = Some (until stop (hits t ++ out)).
Proof.
  induction t as [q|l IHl r IHr]; intros pos par esc f out HL HB HE H1 H2 Hf HW.
  - apply laid_leaf in HL. apply boxed_leaf in HB. destruct HL as (_ & HA & _). unfold body. cbn [spine]. change (Z.to_nat 0) with 0%nat. cbn [descend obind fst snd]. unfold hit. rewrite HB. cbn [obind].
    cbn [size] in *. assert (HW' : walk b test stop (f + Z.to_nat 1) ed (pos + 1) = Some (until stop out)) by (apply walk_mono' with (f := f); [lia|exact HW]).
    unfold hits. cbn [prims filter]. destruct (test (pb q)); cbn [app].
    + rewrite HA. cbn [obind until]. destruct (stop q); [reflexivity|]. rewrite HW'. reflexivity.
    + exact HW'.
  - apply laid_node in HL. destruct HL as ((HLv & HAx & _) & HLl & HLr). apply boxed_node in HB. destruct HB as (HB & HBl & HBr). pose proof (size_pos l) as Sl. pose proof (size_pos r) as Sr. pose proof (spine_nonneg l) as Pl. pose proof (spine_nonneg r) as Pr. cbn [size] in *.
    cbn [spine]. replace (Z.to_nat (1 + spine l)) with (S (Z.to_nat (spine l))) by lia.
    destruct (test (ubox (Node l r))) eqn:Et.
    + assert (X : body (f + Z.to_nat (1 + size l + size r)) (S (Z.to_nat (spine l))) pos = body (f + Z.to_nat (1 + size l + size r)) (Z.to_nat (spine l)) (pos + 1)).
      { unfold body. cbn [descend]. unfold hit at 1. rewrite HB. cbn [obind]. rewrite Et. reflexivity. }
      rewrite X. clear X. replace (f + Z.to_nat (1 + size l + size r))%nat with ((S (f + Z.to_nat (size r))) + Z.to_nat (size l))%nat by lia.
      unfold hits. cbn [prims]. rewrite filter_app, <- app_assoc. eapply IHl; [exact HLl|exact HBl|left; reflexivity|lia|lia|lia|].
      assert (ELr : levels b (pos + 1 + size l) = Some (spine r)) by (destruct r as [q|rl rr]; [apply laid_leaf in HLr; tauto|apply laid_node in HLr; tauto]).
      rewrite (walk_S _ _ (spine r)); [|lia|lia|exact ELr|exact Pr].
      eapply IHr; [exact HLr|exact HBr|destruct HE as [HE|HE]; [left; lia|right; lia]|lia|lia|exact Hf|]. rewrite <- HW. f_equal. lia.
    + assert (X : body (f + Z.to_nat (1 + size l + size r)) (S (Z.to_nat (spine l))) pos = walk b test stop (f + Z.to_nat (1 + size l + size r)) ed esc).
      { unfold body. cbn [descend]. unfold hit at 1. rewrite HB. cbn [obind]. rewrite Et. cbn [obind fst snd]. rewrite HAx. reflexivity. }
      rewrite X, (test_ubox _ Et). cbn [app]. destruct HE as [HE|[HE1 HE2]].
      * rewrite HE. apply walk_mono' with (f := f); [lia|exact HW].
      * rewrite walk_end in HW by auto. injection HW as HW. rewrite <- HW. apply walk_end; [lia|auto].
Qed.
Lemma level_of t pos par esc : laid b t pos par esc -> levels b pos = Some (spine t).
Proof. intro H. destruct t as [q|l r]; [apply laid_leaf in H; tauto|apply laid_node in H; tauto]. Qed.
Lemma walk_ok t pos par esc f out : laid b t pos par esc -> boxed b t pos par esc -> (esc = pos + size t \/ (esc = ed /\ pos + size t = N)) ->
  (ed < pos \/ pos + size t <= ed) -> pos + size t <= N -> (0 < f)%nat -> walk b test stop f ed (pos + size t) = Some (until stop out) ->
  walk b test stop (S (f + Z.to_nat (size t))) ed pos = Some (until stop (hits t ++ out)).
Proof.
  intros HL HB HE H1 H2 Hf HW. pose proof (size_pos t). rewrite (walk_S _ _ (spine t)); [|lia|lia|eapply level_of; exact HL|apply spine_nonneg]. eapply body_ok; eassumption.
Qed.
(** walking from a leaf on *)
Lemma from_leaf t : forall pos par esc f out k q, laid b t pos par esc -> boxed b t pos par esc -> (esc = pos + size t \/ (esc = ed /\ pos + size t = N)) ->
  (ed < pos \/ pos + size t <= ed) -> pos + size t <= N -> (0 < f)%nat -> walk b test stop f ed (pos + size t) = Some (until stop out) -> nth_error (leaf_nodes t pos) k = Some q ->
  walk b test stop (S (f + Z.to_nat (size t))) ed q = Some (until stop (filter (fun p => test (pb p)) (skipn k (prims t)) ++ out)).
Proof.
  induction t as [z|l IHl r IHr]; intros pos par esc f out k q HL HB HE H1 H2 Hf HW Ek.
  - destruct k as [|k]; [|destruct k; discriminate]. injection Ek as <-. cbn [skipn]. change (filter (fun p => test (pb p)) (prims (Leaf z))) with (hits (Leaf z)). eapply walk_ok; eassumption.
  - pose proof HL as HL0. apply laid_node in HL. destruct HL as (_ & HLl & HLr). apply boxed_node in HB. destruct HB as (_ & HBl & HBr). pose proof (size_pos l) as Sl. pose proof (size_pos r) as Sr. cbn [size] in *.
    assert (LN : forall t' p', length (leaf_nodes t' p') = length (prims t')) by (clear; induction t' as [z|l IHl r IHr]; intro p'; cbn [leaf_nodes prims]; [reflexivity|rewrite !app_length, IHl, IHr; reflexivity]).
    assert (HW' : walk b test stop f ed (pos + 1 + size l + size r) = Some (until stop out)) by (rewrite <- HW; f_equal; lia).
    assert (HE' : esc = pos + 1 + size l + size r \/ esc = ed /\ pos + 1 + size l + size r = N) by (destruct HE as [HE|HE]; [left; lia|right; lia]).
    cbn [leaf_nodes prims] in *. destruct (lt_dec k (length (prims l))) as [Lk|Lk].
    + rewrite nth_error_app1 in Ek by (rewrite LN; exact Lk). rewrite skipn_app. replace (k - length (prims l))%nat with 0%nat by lia. cbn [skipn]. rewrite filter_app, <- app_assoc.
      replace (S (f + Z.to_nat (1 + size l + size r))) with (S (S (f + Z.to_nat (size r)) + Z.to_nat (size l))) by lia.
      eapply IHl; [exact HLl|exact HBl|left; reflexivity|lia|lia|lia| |exact Ek]. change (filter (fun p => test (pb p)) (prims r)) with (hits r). eapply walk_ok; try eassumption; lia.
    + rewrite nth_error_app2 in Ek by (rewrite LN; lia). rewrite LN in Ek. rewrite skipn_app. rewrite (skipn_all2 (prims l)) by lia. cbn [app].
      apply walk_mono' with (f := S (f + Z.to_nat (size r))); [lia|]. eapply IHr; try eassumption; lia.
Qed.
End Boxes.
