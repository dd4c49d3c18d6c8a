(** The bottom-up refit under every interleaving. *)
From Verif Require Import Prelude BvsModel BvhSpec BvhQSpec BvhQModel BvhQProofs BvhTree.
Open Scope Z_scope.

Lemma fset_same {A} (f : Z -> A) i x : fset f i x i = x.
Proof. unfold fset. rewrite Z.eqb_refl. reflexivity. Qed.
Lemma fset_other {A} (f : Z -> A) i x j : j <> i -> fset f i x j = f j.
Proof. unfold fset. intro. replace (j =? i) with false by lia. reflexivity. Qed.
Lemma fset_cases {A} (f : Z -> A) i x j : (j = i /\ fset f i x j = x) \/ (j <> i /\ fset f i x j = f j).
Proof. destruct (Z.eq_dec j i) as [->|N]; [left; rewrite fset_same; auto|right; rewrite fset_other; auto]. Qed.

(** counting over a list *)
Fixpoint csum (f : Z -> Z) (l : list Z) : Z := match l with [] => 0 | x :: r => f x + csum f r end.
Lemma csum_ext f g l : (forall x, In x l -> f x = g x) -> csum f l = csum g l.
Proof. induction l as [|x l IH]; intro H; [reflexivity|]. cbn [csum]. rewrite (H x (or_introl eq_refl)). rewrite IH; [reflexivity|]. intros y Hy. apply H. right. exact Hy. Qed.
Lemma csum_one f g l x : NoDup l -> In x l -> (forall y, y <> x -> f y = g y) -> csum f l - csum g l = f x - g x.
Proof.
  induction l as [|y l IH]; intros ND Hx H; [destruct Hx|]. inversion ND as [|? ? N1 N2]; subst. cbn [csum]. destruct Hx as [->|Hx].
  - rewrite (csum_ext f g l) by (intros z Hz; apply H; intros ->; contradiction). lia.
  - specialize (IH N2 Hx H). rewrite (H y) by (intros ->; contradiction). lia.
Qed.
Lemma csum_nonneg f l : (forall x, 0 <= f x) -> 0 <= csum f l.
Proof. intro H. induction l as [|x l IH]; cbn [csum]; [lia|]. specialize (H x). lia. Qed.
Lemma csum_le f l c : (forall x, f x <= c) -> csum f l <= c * Z.of_nat (length l).
Proof. intro H. induction l as [|x l IH]; cbn [csum length]; [lia|]. specialize (H x). lia. Qed.
Lemma csum_fset {A} (g : A -> Z) (f : Z -> A) i v l : NoDup l -> In i l -> csum (fun x => g (fset f i v x)) l = csum (fun x => g (f x)) l + g v - g (f i).
Proof.
  intros ND H. pose proof (csum_one (fun x => g (fset f i v x)) (fun x => g (f x)) l i ND H) as C. cbv beta in C. rewrite fset_same in C. specialize (C ltac:(intros y Hy; rewrite fset_other by exact Hy; reflexivity)). lia.
Qed.
Lemma zr_nodup a b : NoDup (zr a b).
Proof. unfold zr. apply FinFun.Injective_map_NoDup; [intros x y; lia|apply seq_NoDup]. Qed.

Section Refit.
Variable dim : nat.
Variable prs : list box.
Variable b : bvh.
Variable T : tree.
Definition pb (p : Z) : box := nth (Z.to_nat p) prs ([], []).
Notation ubox := (BvhQProofs.ubox dim pb).
Hypothesis HL : laid b T 0 (-1) (-1).
Hypothesis Hln : forall k, (k < length (prims T))%nat -> linds b (Z.of_nat k) = nth_error (leaf_nodes T 0) k.
Hypothesis Hn : nleaves b = Z.of_nat (length (prims T)).
Hypothesis Hp : forall p, In p (prims T) -> (Z.to_nat p < length prs)%nat.
Notation node := (sub T 0 (-1) (-1)).
Notation nl := (nleaves b).

(** the children of a node, and the parent of a node *)
Lemma kids l r x p e : node (Node l r) x p e -> node l (x + 1) x (x + 1 + size l) /\ node r (x + 1 + size l) x e.
Proof. intro H. split; (eapply sub_trans; [exact H|]); [apply sub_left|apply sub_right]; constructor. Qed.
Lemma parent_of t pos par esc t' x p e : sub t pos par esc t' x p e -> (t' = t /\ x = pos /\ p = par) \/ exists l r p' e', sub t pos par esc (Node l r) p p' e' /\ ((t' = l /\ x = p + 1) \/ (t' = r /\ x = p + 1 + size l)).
Proof.
  intro H. induction H as [|l r pos par esc t' x p e H IH|l r pos par esc t' x p e H IH]; [left; auto| |]; right.
  - destruct IH as [(-> & -> & ->)|(l' & r' & p' & e' & X & Y)]; [exists l, r, par, esc; split; [constructor|auto]|exists l', r', p', e'; split; [apply sub_left; exact X|exact Y]].
  - destruct IH as [(-> & -> & ->)|(l' & r' & p' & e' & X & Y)]; [exists l, r, par, esc; split; [constructor|auto]|exists l', r', p', e'; split; [apply sub_right; exact X|exact Y]].
Qed.
(** leaves *)
Lemma leaf_idx t : forall pos par esc k, (k < length (prims t))%nat -> exists q p e, nth_error (leaf_nodes t pos) k = Some q /\ exists z, nth_error (prims t) k = Some z /\ sub t pos par esc (Leaf z) q p e.
Proof.
  assert (LN : forall t' p', length (leaf_nodes t' p') = length (prims t')) by (clear; induction t' as [z|l IHl r IHr]; intro p'; cbn [leaf_nodes prims]; [reflexivity|rewrite !app_length, IHl, IHr; reflexivity]).
  induction t as [z|l IHl r IHr]; intros pos par esc k Hk; cbn [prims leaf_nodes] in *.
  - destruct k as [|k]; [|cbn in Hk; lia]. exists pos, par, esc. split; [reflexivity|]. exists z. split; [reflexivity|constructor].
  - rewrite app_length in Hk. destruct (lt_dec k (length (prims l))) as [Lk|Lk].
    + destruct (IHl (pos + 1) pos (pos + 1 + size l) k Lk) as (q & p & e & A & z & B & C). exists q, p, e. rewrite !nth_error_app1 by (rewrite ?LN; exact Lk). split; [exact A|]. exists z. split; [exact B|]. apply sub_left. exact C.
    + destruct (IHr (pos + 1 + size l) pos esc (k - length (prims l))%nat ltac:(lia)) as (q & p & e & A & z & B & C). exists q, p, e. rewrite !nth_error_app2 by (rewrite ?LN; lia). rewrite LN. split; [exact A|]. exists z. split; [exact B|]. apply sub_right. exact C.
Qed.
Lemma leaf_find t : forall pos par esc z q p e, sub t pos par esc (Leaf z) q p e -> exists k, (k < length (prims t))%nat /\ nth_error (leaf_nodes t pos) k = Some q.
Proof.
  assert (LN : forall t' p', length (leaf_nodes t' p') = length (prims t')) by (clear; induction t' as [z|l IHl r IHr]; intro p'; cbn [leaf_nodes prims]; [reflexivity|rewrite !app_length, IHl, IHr; reflexivity]).
  induction t as [z|l IHl r IHr]; intros pos par esc z' q p e H; cbn [prims leaf_nodes] in *.
  - inversion H; subst. exists 0%nat. split; [cbn; lia|reflexivity].
  - inversion H as [|? ? ? ? ? ? ? ? ? X|? ? ? ? ? ? ? ? ? X]; subst.
    + destruct (IHl _ _ _ _ _ _ _ X) as (k & K1 & K2). exists k. split; [rewrite app_length; lia|]. rewrite nth_error_app1 by (rewrite LN; exact K1). exact K2.
    + destruct (IHr _ _ _ _ _ _ _ X) as (k & K1 & K2). exists (length (prims l) + k)%nat. split; [rewrite app_length; lia|]. rewrite nth_error_app2 by (rewrite LN; lia). rewrite LN. replace (length (prims l) + k - length (prims l))%nat with k by lia. exact K2.
Qed.
Lemma leaf_inj t : forall pos k k' q, nth_error (leaf_nodes t pos) k = Some q -> nth_error (leaf_nodes t pos) k' = Some q -> k = k'.
Proof.
  assert (B : forall t pos k q, nth_error (leaf_nodes t pos) k = Some q -> pos <= q < pos + size t).
  { clear. induction t as [z|l IHl r IHr]; intros pos k q E; cbn [leaf_nodes size] in *.
    - destruct k as [|[|k]]; [injection E as <-; lia|discriminate|discriminate].
    - pose proof (size_pos l). pose proof (size_pos r). destruct (lt_dec k (length (leaf_nodes l (pos + 1)))); [rewrite nth_error_app1 in E by assumption; apply IHl in E; lia|rewrite nth_error_app2 in E by lia; apply IHr in E; lia]. }
  induction t as [z|l IHl r IHr]; intros pos k k' q E E'; cbn [leaf_nodes] in *.
  - destruct k as [|[|k]]; destruct k' as [|[|k']]; try discriminate. reflexivity.
  - destruct (lt_dec k (length (leaf_nodes l (pos + 1)))) as [A|A]; destruct (lt_dec k' (length (leaf_nodes l (pos + 1)))) as [A'|A'].
    + rewrite nth_error_app1 in E by exact A. rewrite nth_error_app1 in E' by exact A'. eapply IHl; eassumption.
    + rewrite nth_error_app1 in E by exact A. rewrite nth_error_app2 in E' by lia. apply B in E. apply B in E'. lia.
    + rewrite nth_error_app2 in E by lia. rewrite nth_error_app1 in E' by exact A'. apply B in E. apply B in E'. lia.
    + rewrite nth_error_app2 in E by lia. rewrite nth_error_app2 in E' by lia. assert ((k - length (leaf_nodes l (pos + 1)))%nat = (k' - length (leaf_nodes l (pos + 1)))%nat) by (eapply IHr; eassumption). lia.
Qed.

Definition works (s : state) (i x : Z) : Prop := thr s i = RdL x \/ (exists v, thr s i = RdR x v) \/ (exists v, thr s i = Wr x v).
(** F: nodes whose box is final; A: nodes whose thread has done the compare-and-swap on the parent *)
Record Inv (F A : Z -> bool) (s : state) : Prop := {
  i_box : forall t x p e, node t x p e -> F x = true -> obvs s x = Some (ubox t);
  i_up : forall i c, thr s i = Up c -> F c = true /\ A c = false /\ exists t p e, node t c p e;
  i_up1 : forall i j c, thr s i = Up c -> thr s j = Up c -> i = j;
  i_wk : forall i x, works s i x -> F x = false /\ exists l r p e, node (Node l r) x p e /\ A (x + 1) = true /\ A (x + 1 + size l) = true /\
           (forall v, thr s i = RdR x v -> v = ubox l) /\ (forall v, thr s i = Wr x v -> v = ubox (Node l r));
  i_wk1 : forall i j x, works s i x -> works s j x -> i = j;
  i_fl : forall l r x p e, node (Node l r) x p e -> flags s x = A (x + 1) || A (x + 1 + size l);
  i_af : forall x, A x = true -> F x = true;
  i_ka : forall l r x p e, node (Node l r) x p e -> F x = true -> A (x + 1) = true /\ A (x + 1 + size l) = true;
  i_cu : forall t x p e, node t x p e -> F x = true -> A x = false -> exists i, 0 <= i < nl /\ thr s i = Up x;
  i_cw : forall l r x p e, node (Node l r) x p e -> A (x + 1) = true -> A (x + 1 + size l) = true -> F x = false -> exists i, 0 <= i < nl /\ works s i x;
  i_st : forall k q, 0 <= k < nl -> linds b k = Some q -> (thr s k = Start <-> F q = false);
  i_out : forall i, ~ 0 <= i < nl -> thr s i = Done }.
Definition rank (w : thread) : Z := match w with RdL _ => 3 | RdR _ _ => 2 | Wr _ _ => 1 | _ => 0 end.
Definition nb (x : bool) : Z := if x then 0 else 4.
Definition pot (F A : Z -> bool) (s : state) : Z := csum (fun x => nb (F x)) (zr 0 (size T)) + csum (fun x => nb (A x)) (zr 0 (size T)) + csum (fun i => rank (thr s i)) (zr 0 nl).
Lemma in_node t x p e : node t x p e -> In x (zr 0 (size T)).
Proof. intro H. apply sub_rng in H. pose proof (size_pos t). apply zr_in. lia. Qed.
Lemma idx_of i s F A : Inv F A s -> thr s i <> Done -> 0 <= i < nl.
Proof. intros I H. destruct (Z_le_gt_dec 0 i); [destruct (Z_lt_ge_dec i nl); [lia|]|]; exfalso; apply H; apply (i_out _ _ _ I); lia. Qed.
Lemma leaf_at k : 0 <= k < nl -> exists q z p e, linds b k = Some q /\ node (Leaf z) q p e.
Proof.
  intro H. destruct (leaf_idx T 0 (-1) (-1) (Z.to_nat k) ltac:(lia)) as (q & p & e & A & z & B & C). exists q, z, p, e. split; [|exact C]. rewrite <- A, <- Hln by lia. f_equal. lia.
Qed.
Lemma linds_inj k k' q : 0 <= k < nl -> 0 <= k' < nl -> linds b k = Some q -> linds b k' = Some q -> k = k'.
Proof.
  intros H H' E E'. assert (Z.to_nat k = Z.to_nat k'); [|lia]. eapply (leaf_inj T 0); rewrite <- Hln by lia; rewrite Z2Nat.id by lia; [exact E|exact E'].
Qed.
Lemma prims_in t pos par esc z q p e : sub t pos par esc (Leaf z) q p e -> In z (prims t).
Proof. intro H. remember (Leaf z) as lf eqn:El. induction H; subst; cbn [prims]; [left; reflexivity| |]; apply in_or_app; auto. Qed.

(** node facts: any two subtrees with the same number are the same *)
Lemma same x t p e t' p' e' : node t x p e -> node t' x p' e' -> t = t' /\ p = p' /\ e = e'.
Proof. intros H H'. exact (sub_uniq _ _ _ _ _ _ _ _ H _ _ _ _ H' eq_refl). Qed.
Lemma node_par x t p e : node t x p e -> parents b x = Some p.
Proof. intro H. pose proof (laid_sub b _ _ _ _ _ _ _ _ H HL) as X. destruct t; [apply laid_leaf in X; tauto|apply laid_node in X; tauto]. Qed.
Lemma kid_uniq c t p e : node t c p e -> forall l r x p' e', node (Node l r) x p' e' -> c = x + 1 \/ c = x + 1 + size l -> p = x.
Proof.
  intros H l r x p' e' H' E. destruct (kids _ _ _ _ _ H') as [K1 K2]. destruct E as [-> | ->]; [destruct (same _ _ _ _ _ _ _ H K1) as (_ & X & _)|destruct (same _ _ _ _ _ _ _ H K2) as (_ & X & _)]; exact X.
Qed.

Lemma step_start F A s i : Inv F A s -> thr s i = Start -> exists F' s', step dim prs b i s = Some s' /\ Inv F' A s' /\ pot F' A s' < pot F A s.
Proof.
  intros I E. pose proof (idx_of i s F A I ltac:(congruence)) as Hi. destruct (leaf_at i Hi) as (q & z & p & e & Eq & Hq). pose proof (proj1 (i_st _ _ _ I i q Hi Eq) E) as Fq.
  pose proof (laid_leaf _ _ _ _ _ (laid_sub b _ _ _ _ _ _ _ _ Hq HL)) as (_ & Ax & _). pose proof (Hp z (prims_in _ _ _ _ _ _ _ _ Hq)) as Hz.
  exists (fset F q true). eexists. split; [unfold step; rewrite E, Eq; cbn [obind]; rewrite Ax; cbn [obind]; rewrite (nth_error_nth' prs ([], []) Hz); cbn [obind]; reflexivity|].
  assert (TH : forall j, thr (mkSt (fset (obvs s) q (Some (nth (Z.to_nat z) prs ([], [])))) (flags s) (fset (thr s) i (Up q))) j = fset (thr s) i (Up q) j) by reflexivity.
  assert (Aq : A q = false) by (destruct (A q) eqn:X; [apply (i_af _ _ _ I) in X; congruence|reflexivity]).
  assert (WK : forall j x, works (mkSt (fset (obvs s) q (Some (nth (Z.to_nat z) prs ([], [])))) (flags s) (fset (thr s) i (Up q))) j x -> j <> i /\ works s j x).
  { intros j x W. unfold works in W. cbn [thr] in W. destruct (fset_cases (thr s) i (Up q) j) as [[-> X]|[N X]]; rewrite X in W; [destruct W as [W|[[v W]|[v W]]]; discriminate|auto]. }
  assert (WK' : forall j x, works s j x -> works (mkSt (fset (obvs s) q (Some (nth (Z.to_nat z) prs ([], [])))) (flags s) (fset (thr s) i (Up q))) j x).
  { intros j x W. unfold works. cbn [thr]. destruct (fset_cases (thr s) i (Up q) j) as [[-> X]|[N X]]; rewrite X; [unfold works in W; rewrite E in W; destruct W as [W|[[v W]|[v W]]]; discriminate|exact W]. }
  split.
  - constructor.
    + intros t x p0 e0 Hx Fx. cbn [obvs]. destruct (fset_cases (obvs s) q (Some (nth (Z.to_nat z) prs ([], []))) x) as [[-> X]|[N X]]; rewrite X.
      * destruct (same _ _ _ _ _ _ _ Hx Hq) as (-> & _). reflexivity.
      * rewrite fset_other in Fx by exact N. eapply (i_box _ _ _ I); eassumption.
    + intros j c Ej. rewrite TH in Ej. destruct (fset_cases (thr s) i (Up q) j) as [[-> X]|[N X]]; rewrite X in Ej.
      * injection Ej as <-. rewrite fset_same. split; [reflexivity|]. split; [exact Aq|]. eauto.
      * destruct (i_up _ _ _ I j c Ej) as (X1 & X2 & X3). split; [|auto]. destruct (fset_cases F q true c) as [[_ Y]|[_ Y]]; congruence.
    + intros j j' c Ej Ej'. rewrite TH in Ej, Ej'. destruct (fset_cases (thr s) i (Up q) j) as [[-> X]|[N X]]; destruct (fset_cases (thr s) i (Up q) j') as [[-> X']|[N' X']]; rewrite X in Ej; rewrite X' in Ej'; [reflexivity| | |eapply (i_up1 _ _ _ I); eassumption].
      * injection Ej as <-. destruct (i_up _ _ _ I _ _ Ej') as (Y & _). congruence.
      * injection Ej' as <-. destruct (i_up _ _ _ I _ _ Ej) as (Y & _). congruence.
    + intros j x W. destruct (WK j x W) as [Nj Wj]. destruct (i_wk _ _ _ I j x Wj) as (X1 & l & r & p0 & e0 & X2 & X3 & X4 & X5 & X6). split.
      * destruct (fset_cases F q true x) as [[-> _]|[_ Y]]; [destruct (same _ _ _ _ _ _ _ X2 Hq) as (Y & _); discriminate|congruence].
      * exists l, r, p0, e0. rewrite !TH, !fset_other by exact Nj. auto.
    + intros j j' x W W'. apply WK in W. apply WK in W'. eapply (i_wk1 _ _ _ I); [apply W|apply W'].
    + intros. cbn [flags]. eapply (i_fl _ _ _ I); eassumption.
    + intros x Hx. destruct (fset_cases F q true x) as [[_ Y]|[_ Y]]; [exact Y|]. rewrite Y. apply (i_af _ _ _ I). exact Hx.
    + intros l r x p0 e0 Hx Fx. destruct (fset_cases F q true x) as [[-> _]|[_ Y]]; [destruct (same _ _ _ _ _ _ _ Hx Hq) as (Y & _); discriminate|]. rewrite Y in Fx. eapply (i_ka _ _ _ I); eassumption.
    + intros t x p0 e0 Hx Fx Ax'. destruct (fset_cases F q true x) as [[-> _]|[N Y]].
      * exists i. split; [exact Hi|]. rewrite TH, fset_same. reflexivity.
      * rewrite Y in Fx. destruct (i_cu _ _ _ I _ _ _ _ Hx Fx Ax') as (j & J1 & J2). exists j. split; [exact J1|]. rewrite TH, fset_other by congruence. exact J2.
    + intros l r x p0 e0 Hx A1 A2 Fx. destruct (fset_cases F q true x) as [[_ Y]|[_ Y]]; [congruence|]. rewrite Y in Fx. destruct (i_cw _ _ _ I _ _ _ _ _ Hx A1 A2 Fx) as (j & J1 & J2). exists j. auto.
    + intros k q' Hk Ek. rewrite TH. destruct (fset_cases (thr s) i (Up q) k) as [[-> X]|[N X]]; rewrite X.
      * assert (q' = q) by congruence. subst q'. rewrite fset_same. split; discriminate.
      * rewrite fset_other; [apply (i_st _ _ _ I); assumption|]. intros ->. apply N. eapply linds_inj; eassumption.
    + intros j Hj. rewrite TH, fset_other by (intros ->; contradiction). apply (i_out _ _ _ I). exact Hj.
  - unfold pot. cbn [thr]. rewrite (csum_fset nb F q true) by (exact (zr_nodup _ _) || exact (in_node _ _ _ _ Hq)). rewrite (csum_fset rank (thr s) i) by (exact (zr_nodup _ _) || exact (proj2 (zr_in 0 nl i) Hi)).
    rewrite E, Fq. cbn [nb rank]. lia.
Qed.

Definition on (w : thread) (x : Z) : Prop := w = RdL x \/ (exists v, w = RdR x v) \/ (exists v, w = Wr x v).
Lemma wk_set s o f i w j x : works (mkSt o f (fset (thr s) i w)) j x <-> (j = i /\ on w x) \/ (j <> i /\ works s j x).
Proof.
  unfold works, on. cbn [thr]. destruct (fset_cases (thr s) i w j) as [[-> X]|[N X]]; rewrite X; [split; [auto|intros [[_ H]|[H _]]; [exact H|congruence]]|split; [auto|intros [[H _]|[_ H]]; [congruence|exact H]]].
Qed.
Lemma up_common F A s i c t p e fl w : Inv F A s -> thr s i = Up c -> node t c p e ->
  (forall l r x p0 e0, node (Node l r) x p0 e0 -> fl x = fset A c true (x + 1) || fset A c true (x + 1 + size l)) ->
  (w = Done \/ (w = RdL p /\ F p = false /\ exists l r p0 e0, node (Node l r) p p0 e0 /\ fset A c true (p + 1) = true /\ fset A c true (p + 1 + size l) = true /\ (c = p + 1 \/ c = p + 1 + size l))) ->
  (forall l r x p0 e0, node (Node l r) x p0 e0 -> fset A c true (x + 1) = true -> fset A c true (x + 1 + size l) = true -> F x = false -> w = RdL x \/ (A (x + 1) = true /\ A (x + 1 + size l) = true)) ->
  let s' := mkSt (obvs s) fl (fset (thr s) i w) in Inv F (fset A c true) s' /\ pot F (fset A c true) s' < pot F A s.
Proof.
  intros I E Hc H1 H2 H3 s'. pose proof (idx_of i s F A I ltac:(congruence)) as Hi. destruct (i_up _ _ _ I _ _ E) as (Fc & Ac & _).
  assert (TH : forall j, thr s' j = fset (thr s) i w j) by reflexivity.
  assert (NU : forall c', w <> Up c') by (intro c'; destruct H2 as [-> |(-> & _)]; discriminate).
  assert (NS : w <> Start) by (destruct H2 as [-> |(-> & _)]; discriminate).
  assert (AM : forall x, A x = true -> fset A c true x = true) by (intros x Hx; destruct (fset_cases A c true x) as [[_ Y]|[_ Y]]; congruence).
  split.
  - constructor.
    + intros. cbn [obvs s']. eapply (i_box _ _ _ I); eassumption.
    + intros j c' Ej. rewrite TH in Ej. destruct (fset_cases (thr s) i w j) as [[-> X]|[N X]]; rewrite X in Ej; [destruct (NU _ Ej)|]. destruct (i_up _ _ _ I j c' Ej) as (X1 & X2 & X3). split; [exact X1|]. split; [|exact X3].
      rewrite fset_other; [exact X2|]. intros ->. apply N. eapply (i_up1 _ _ _ I); eassumption.
    + intros j j' c' Ej Ej'. rewrite TH in Ej, Ej'. destruct (fset_cases (thr s) i w j) as [[-> X]|[N X]]; destruct (fset_cases (thr s) i w j') as [[-> X']|[N' X']]; rewrite X in Ej; rewrite X' in Ej'; try (destruct (NU _ Ej)); try (destruct (NU _ Ej')). eapply (i_up1 _ _ _ I); eassumption.
    + intros j x W. apply wk_set in W. destruct W as [[-> W]|[N W]].
      * destruct H2 as [-> |(-> & Fp & l & r & p0 & e0 & Hn0 & A1 & A2 & _)]; [destruct W as [W|[[v W]|[v W]]]; discriminate|]. assert (x = p) by (destruct W as [W|[[v W]|[v W]]]; [congruence|discriminate|discriminate]). subst x.
        split; [exact Fp|]. exists l, r, p0, e0. rewrite TH, fset_same. repeat split; auto; discriminate.
      * destruct (i_wk _ _ _ I j x W) as (X1 & l & r & p0 & e0 & X2 & X3 & X4 & X5 & X6). split; [exact X1|]. exists l, r, p0, e0. rewrite TH, (fset_other (thr s) i w j) by exact N. auto 8.
    + assert (Z0 : forall j x, on w x -> works s j x -> False).
      { intros j x W W'. destruct H2 as [-> |(-> & Fp & l & r & p0 & e0 & Hn0 & A1 & A2 & Ck)]; [destruct W as [W|[[v W]|[v W]]]; discriminate|]. assert (x = p) by (destruct W as [W|[[v W]|[v W]]]; [congruence|discriminate|discriminate]). subst x.
        destruct (i_wk _ _ _ I j p W') as (X1 & l' & r' & p1 & e1 & X2 & X3 & X4 & _). destruct (same _ _ _ _ _ _ _ Hn0 X2) as (EE & _). injection EE as -> ->. destruct Ck; congruence. }
      intros j j' x W W'. apply wk_set in W. apply wk_set in W'. destruct W as [[-> W]|[N W]]; destruct W' as [[-> W']|[N' W']]; [reflexivity|destruct (Z0 _ _ W W')|destruct (Z0 _ _ W' W)|eapply (i_wk1 _ _ _ I); eassumption].
    + exact H1.
    + intros x Hx. destruct (fset_cases A c true x) as [[-> _]|[_ Y]]; [exact Fc|]. rewrite Y in Hx. apply (i_af _ _ _ I). exact Hx.
    + intros l r x p0 e0 Hx Fx. destruct (i_ka _ _ _ I _ _ _ _ _ Hx Fx). auto.
    + intros t0 x p0 e0 Hx Fx Ax. destruct (fset_cases A c true x) as [[_ Y]|[N Y]]; [congruence|]. rewrite Y in Ax. destruct (i_cu _ _ _ I _ _ _ _ Hx Fx Ax) as (j & J1 & J2). exists j. split; [exact J1|]. rewrite TH, fset_other by congruence. exact J2.
    + intros l r x p0 e0 Hx A1 A2 Fx. destruct (H3 _ _ _ _ _ Hx A1 A2 Fx) as [X|[X1 X2]].
      * exists i. split; [exact Hi|]. apply wk_set. left. split; [reflexivity|]. left. exact X.
      * destruct (i_cw _ _ _ I _ _ _ _ _ Hx X1 X2 Fx) as (j & J1 & J2). exists j. split; [exact J1|]. apply wk_set. right. split; [|exact J2]. intros ->. unfold works in J2. rewrite E in J2. destruct J2 as [W|[[v W]|[v W]]]; discriminate.
    + intros k q Hk Ek. rewrite TH. destruct (fset_cases (thr s) i w k) as [[-> X]|[N X]]; rewrite X; [|apply (i_st _ _ _ I); assumption]. split; [intro Y; congruence|]. intro Fq. apply (proj2 (i_st _ _ _ I _ q Hk Ek)) in Fq. congruence.
    + intros j Hj. rewrite TH, fset_other by (intros ->; contradiction). apply (i_out _ _ _ I). exact Hj.
  - unfold pot. cbn [thr s']. rewrite (csum_fset nb A c true) by (exact (zr_nodup _ _) || exact (in_node _ _ _ _ Hc)). rewrite (csum_fset rank (thr s) i) by (exact (zr_nodup _ _) || exact (proj2 (zr_in 0 nl i) Hi)).
    rewrite E, Ac. destruct H2 as [-> |(-> & _)]; cbn [nb rank]; lia.
Qed.
Lemma step_up F A s i c : Inv F A s -> thr s i = Up c -> exists A' s', step dim prs b i s = Some s' /\ Inv F A' s' /\ pot F A' s' < pot F A s.
Proof.
  intros I E. destruct (i_up _ _ _ I _ _ E) as (Fc & Ac & t & p & e & Hc). pose proof (node_par _ _ _ _ Hc) as Ep. exists (fset A c true).
  assert (FO : forall l r x p0 e0, node (Node l r) x p0 e0 -> x <> p -> fset A c true (x + 1) = A (x + 1) /\ fset A c true (x + 1 + size l) = A (x + 1 + size l)).
  { intros l r x p0 e0 Hx N. split; apply fset_other; intros X; apply N; symmetry; eapply kid_uniq; eauto. }
  destruct (parent_of _ _ _ _ _ _ _ _ Hc) as [(-> & -> & ->)|(l & r & p' & e' & Hpn & Ck)].
  - eexists. split; [unfold step; rewrite E, Ep; cbn [obind]; change (-1 =? -1) with true; cbv iota; reflexivity|]. eapply (up_common F A s i 0 T (-1) e); eauto.
    + intros l r x p0 e0 Hx. assert (x <> -1) by (apply sub_rng in Hx; lia). destruct (FO _ _ _ _ _ Hx H) as [-> ->]. eapply (i_fl _ _ _ I); eassumption.
    + intros l r x p0 e0 Hx A1 A2 _. right. assert (x <> -1) by (apply sub_rng in Hx; lia). destruct (FO _ _ _ _ _ Hx H) as [X1 X2]. rewrite X1 in A1. rewrite X2 in A2. auto.
  - assert (Np : (p =? -1) = false) by (apply sub_rng in Hpn; lia). assert (Fp : F p = false) by (destruct (F p) eqn:X; [|reflexivity]; destruct (i_ka _ _ _ I _ _ _ _ _ Hpn X); destruct Ck as [[_ ->]|[_ ->]]; congruence).
    assert (Ck' : c = p + 1 \/ c = p + 1 + size l) by tauto. pose proof (i_fl _ _ _ I _ _ _ _ _ Hpn) as Fl. pose proof (size_pos l) as Sl.
    destruct (flags s p) eqn:Ef.
    + eexists. split; [unfold step; rewrite E, Ep; cbn [obind]; rewrite Np, Ef; reflexivity|].
      assert (Both : fset A c true (p + 1) = true /\ fset A c true (p + 1 + size l) = true).
      { destruct Ck' as [-> | ->]; rewrite fset_same, fset_other by lia; destruct (A (p + 1)), (A (p + 1 + size l)); cbn in Fl; try congruence; auto. }
      eapply (up_common F A s i c t p e); eauto.
      * intros l0 r0 x p0 e0 Hx. destruct (Z.eq_dec x p) as [->|N].
        -- destruct (same _ _ _ _ _ _ _ Hx Hpn) as (X & _). injection X as -> ->. destruct Both as [-> ->]. rewrite Ef. reflexivity.
        -- destruct (FO _ _ _ _ _ Hx N) as [-> ->]. eapply (i_fl _ _ _ I); eassumption.
      * right. split; [reflexivity|]. split; [exact Fp|]. exists l, r, p', e'. tauto.
      * intros l0 r0 x p0 e0 Hx A1 A2 _. destruct (Z.eq_dec x p) as [->|N]; [left; reflexivity|right]. destruct (FO _ _ _ _ _ Hx N) as [X1 X2]. rewrite X1 in A1. rewrite X2 in A2. auto.
    + eexists. split; [unfold step; rewrite E, Ep; cbn [obind]; rewrite Np, Ef; reflexivity|]. symmetry in Fl. apply orb_false_iff in Fl.
      assert (One : fset A c true (p + 1) || fset A c true (p + 1 + size l) = true /\ (fset A c true (p + 1) = false \/ fset A c true (p + 1 + size l) = false)).
      { destruct Ck' as [-> | ->]; rewrite fset_same, fset_other by lia; [split; [reflexivity|right; tauto]|split; [apply orb_true_r|left; tauto]]. }
      eapply (up_common F A s i c t p e); eauto.
      * intros l0 r0 x p0 e0 Hx. destruct (fset_cases (flags s) p true x) as [[-> X]|[N X]]; rewrite X.
        -- destruct (same _ _ _ _ _ _ _ Hx Hpn) as (Y & _). injection Y as -> ->. symmetry. exact (proj1 One).
        -- destruct (FO _ _ _ _ _ Hx N) as [-> ->]. eapply (i_fl _ _ _ I); eassumption.
      * intros l0 r0 x p0 e0 Hx A1 A2 _. right. destruct (Z.eq_dec x p) as [->|N].
        -- destruct (same _ _ _ _ _ _ _ Hx Hpn) as (Y & _). injection Y as -> ->. destruct One as [_ [Y|Y]]; congruence.
        -- destruct (FO _ _ _ _ _ Hx N) as [X1 X2]. rewrite X1 in A1. rewrite X2 in A2. auto.
Qed.
(** steps that only change the state of a working thread *)
Lemma work_common F A s i x w : Inv F A s -> works s i x -> on w x -> rank w < rank (thr s i) ->
  (forall l r p e, node (Node l r) x p e -> (forall v, w = RdR x v -> v = ubox l) /\ (forall v, w = Wr x v -> v = ubox (Node l r))) ->
  let s' := mkSt (obvs s) (flags s) (fset (thr s) i w) in Inv F A s' /\ pot F A s' < pot F A s.
Proof.
  intros I W Hw Hr Hv s'. assert (ND : thr s i <> Done) by (intro X; unfold works in W; rewrite X in W; destruct W as [W|[[v W]|[v W]]]; discriminate). pose proof (idx_of i s F A I ND) as Hi.
  assert (TH : forall j, thr s' j = fset (thr s) i w j) by reflexivity.
  assert (NU : forall c', w <> Up c') by (intros c' ->; destruct Hw as [X|[[v X]|[v X]]]; discriminate).
  assert (NS : w <> Start) by (intros ->; destruct Hw as [X|[[v X]|[v X]]]; discriminate).
  assert (ON : forall y, on w y -> y = x) by (intros y Hy; destruct Hw as [X|[[v X]|[v X]]]; subst w; destruct Hy as [Y|[[v' Y]|[v' Y]]]; congruence).
  assert (NU' : forall c', thr s i <> Up c') by (intros c' X; unfold works in W; rewrite X in W; destruct W as [W|[[v W]|[v W]]]; discriminate).
  assert (NS' : thr s i <> Start) by (intros X; unfold works in W; rewrite X in W; destruct W as [W|[[v W]|[v W]]]; discriminate).
  assert (WE : forall j y, works s' j y <-> works s j y).
  { intros j y. unfold s'. rewrite wk_set. split.
    - intros [[-> Y]|[_ Y]]; [rewrite (ON y Y); exact W|exact Y].
    - intro Y. destruct (Z.eq_dec j i) as [->|N]; [left; split; [reflexivity|]|right; auto]. assert (y = x); [|subst; exact Hw].
      unfold works in W, Y. destruct W as [X|[[v X]|[v X]]]; rewrite X in Y; destruct Y as [Y|[[v' Y]|[v' Y]]]; congruence. }
  split.
  - constructor.
    + exact (i_box _ _ _ I).
    + intros j c' Ej. rewrite TH in Ej. destruct (fset_cases (thr s) i w j) as [[-> X]|[N X]]; rewrite X in Ej; [destruct (NU _ Ej)|]. eapply (i_up _ _ _ I); eassumption.
    + intros j j' c' Ej Ej'. rewrite TH in Ej, Ej'. destruct (fset_cases (thr s) i w j) as [[-> X]|[N X]]; destruct (fset_cases (thr s) i w j') as [[-> X']|[N' X']]; rewrite X in Ej; rewrite X' in Ej'; try (destruct (NU _ Ej)); try (destruct (NU _ Ej')). eapply (i_up1 _ _ _ I); eassumption.
    + intros j y Wj. rewrite TH. apply WE in Wj. destruct (i_wk _ _ _ I j y Wj) as (X1 & l & r & p0 & e0 & X2 & X3 & X4 & X5 & X6). split; [exact X1|]. exists l, r, p0, e0. split; [exact X2|]. split; [exact X3|]. split; [exact X4|].
      destruct (fset_cases (thr s) i w j) as [[-> X]|[N X]]; rewrite X; [|auto]. assert (y = x) by (unfold works in W, Wj; destruct W as [Y|[[v Y]|[v Y]]]; rewrite Y in Wj; destruct Wj as [Y'|[[v' Y']|[v' Y']]]; congruence). subst y. exact (Hv _ _ _ _ X2).
    + intros j j' y Wj Wj'. apply WE in Wj. apply WE in Wj'. eapply (i_wk1 _ _ _ I); eassumption.
    + exact (i_fl _ _ _ I).
    + exact (i_af _ _ _ I).
    + exact (i_ka _ _ _ I).
    + intros t0 y p0 e0 Hx Fx Ax. destruct (i_cu _ _ _ I _ _ _ _ Hx Fx Ax) as (j & J1 & J2). exists j. split; [exact J1|]. rewrite TH, fset_other; [exact J2|]. intros ->. exact (NU' _ J2).
    + intros l r y p0 e0 Hx A1 A2 Fx. destruct (i_cw _ _ _ I _ _ _ _ _ Hx A1 A2 Fx) as (j & J1 & J2). exists j. split; [exact J1|]. apply WE. exact J2.
    + intros k q Hk Ek. rewrite TH. destruct (fset_cases (thr s) i w k) as [[-> X]|[N X]]; rewrite X; [|apply (i_st _ _ _ I); assumption]. split; [intro Y; congruence|]. intro Fq. apply (proj2 (i_st _ _ _ I _ q Hk Ek)) in Fq. congruence.
    + intros j Hj. rewrite TH, fset_other by (intros ->; contradiction). apply (i_out _ _ _ I). exact Hj.
  - unfold pot. cbn [thr s']. rewrite (csum_fset rank (thr s) i) by (exact (zr_nodup _ _) || exact (proj2 (zr_in 0 nl i) Hi)). lia.
Qed.
Lemma step_rdl F A s i x : Inv F A s -> thr s i = RdL x -> exists s', step dim prs b i s = Some s' /\ Inv F A s' /\ pot F A s' < pot F A s.
Proof.
  intros I E. assert (W : works s i x) by (left; exact E). destruct (i_wk _ _ _ I i x W) as (Fx & l & r & p & e & Hx & A1 & A2 & _). destruct (kids _ _ _ _ _ Hx) as [K1 K2].
  pose proof (i_box _ _ _ I _ _ _ _ K1 (i_af _ _ _ I _ A1)) as B1. eexists. split; [unfold step; rewrite E, B1; cbn [obind]; reflexivity|]. eapply (work_common F A s i x); eauto.
  - right. left. eauto.
  - rewrite E. cbn. lia.
  - intros l' r' p' e' Hx'. destruct (same _ _ _ _ _ _ _ Hx Hx') as (X & _). injection X as <- <-. split; intros v Ev; [congruence|discriminate].
Qed.
Lemma step_rdr F A s i x v : Inv F A s -> thr s i = RdR x v -> exists s', step dim prs b i s = Some s' /\ Inv F A s' /\ pot F A s' < pot F A s.
Proof.
  intros I E. assert (W : works s i x) by (right; left; eauto). destruct (i_wk _ _ _ I i x W) as (Fx & l & r & p & e & Hx & A1 & A2 & V1 & V2). destruct (kids _ _ _ _ _ Hx) as [K1 K2].
  pose proof (V1 v E) as Ev. subst v. pose proof (i_box _ _ _ I _ _ _ _ K2 (i_af _ _ _ I _ A2)) as B2. pose proof (laid_sub b _ _ _ _ _ _ _ _ K1 HL) as LL.
  assert (RC : exists lv, levels b (x + 1) = Some lv /\ (if negb (lv =? 0) then aux b (x + 1) else Some (x + 1 + 1)) = Some (x + 1 + size l)).
  { destruct l as [z|ll lr].
    - apply laid_leaf in LL. exists 0. split; [tauto|]. cbn. reflexivity.
    - apply laid_node in LL. destruct LL as ((L1 & L2 & _) & _). exists (1 + spine ll). split; [exact L1|]. pose proof (spine_nonneg ll). replace (1 + spine ll =? 0) with false by lia. cbn [negb]. exact L2. }
  destruct RC as (lv & R1 & R2). eexists. split; [unfold step; rewrite E, R1; cbn [obind]; rewrite R2; cbn [obind]; rewrite B2; cbn [obind]; reflexivity|]. eapply (work_common F A s i x); eauto.
  - right. right. eauto.
  - rewrite E. cbn. lia.
  - intros l' r' p' e' Hx'. destruct (same _ _ _ _ _ _ _ Hx Hx') as (X & _). injection X as <- <-. split; intros v Ev; [discriminate|]. injection Ev as <-. reflexivity.
Qed.
Lemma step_wr F A s i x v : Inv F A s -> thr s i = Wr x v -> exists F' s', step dim prs b i s = Some s' /\ Inv F' A s' /\ pot F' A s' < pot F A s.
Proof.
  intros I E. pose proof (idx_of i s F A I ltac:(congruence)) as Hi. assert (W : works s i x) by (right; right; eauto). destruct (i_wk _ _ _ I i x W) as (Fx & l & r & p & e & Hx & A1 & A2 & V1 & V2). pose proof (V2 v E) as Ev. subst v. clear V1 V2.
  exists (fset F x true). eexists. split; [unfold step; rewrite E; reflexivity|].
  set (s' := mkSt _ _ _). assert (TH : forall j, thr s' j = fset (thr s) i (Up x) j) by reflexivity.
  assert (Ax : A x = false) by (destruct (A x) eqn:X; [apply (i_af _ _ _ I) in X; congruence|reflexivity]).
  assert (WE : forall j y, works s' j y <-> (j <> i /\ works s j y)).
  { intros j y. unfold s'. rewrite wk_set. split; [|auto]. intros [[_ [Y|[[v Y]|[v Y]]]]|Y]; try discriminate. exact Y. }
  split.
  - constructor.
    + intros t y p0 e0 Hy Fy. cbn [obvs s']. destruct (fset_cases (obvs s) x (Some (ubox (Node l r))) y) as [[-> X]|[N X]]; rewrite X.
      * destruct (same _ _ _ _ _ _ _ Hy Hx) as (-> & _). reflexivity.
      * rewrite fset_other in Fy by exact N. eapply (i_box _ _ _ I); eassumption.
    + intros j c Ej. rewrite TH in Ej. destruct (fset_cases (thr s) i (Up x) j) as [[-> X]|[N X]]; rewrite X in Ej.
      * injection Ej as <-. rewrite fset_same. split; [reflexivity|]. split; [exact Ax|]. eauto.
      * destruct (i_up _ _ _ I j c Ej) as (X1 & X2 & X3). split; [|auto]. destruct (fset_cases F x true c) as [[_ Y]|[_ Y]]; congruence.
    + intros j j' c Ej Ej'. rewrite TH in Ej, Ej'. destruct (fset_cases (thr s) i (Up x) j) as [[-> X]|[N X]]; destruct (fset_cases (thr s) i (Up x) j') as [[-> X']|[N' X']]; rewrite X in Ej; rewrite X' in Ej'; [reflexivity| | |eapply (i_up1 _ _ _ I); eassumption].
      * injection Ej as <-. destruct (i_up _ _ _ I _ _ Ej') as (Y & _). congruence.
      * injection Ej' as <-. destruct (i_up _ _ _ I _ _ Ej) as (Y & _). congruence.
    + intros j y Wj. apply WE in Wj. destruct Wj as [Nj Wj]. destruct (i_wk _ _ _ I j y Wj) as (X1 & l' & r' & p0 & e0 & X2 & X3 & X4 & X5 & X6). split.
      * destruct (fset_cases F x true y) as [[-> _]|[_ Y]]; [destruct Nj; eapply (i_wk1 _ _ _ I); eassumption|congruence].
      * exists l', r', p0, e0. rewrite !TH, !fset_other by exact Nj. auto.
    + intros j j' y Wj Wj'. apply WE in Wj. apply WE in Wj'. eapply (i_wk1 _ _ _ I); [apply Wj|apply Wj'].
    + exact (i_fl _ _ _ I).
    + intros y Hy. destruct (fset_cases F x true y) as [[_ Y]|[_ Y]]; [exact Y|]. rewrite Y. apply (i_af _ _ _ I). exact Hy.
    + intros l' r' y p0 e0 Hy Fy. destruct (fset_cases F x true y) as [[-> _]|[_ Y]]; [destruct (same _ _ _ _ _ _ _ Hy Hx) as (Y & _); injection Y as -> ->; auto|]. rewrite Y in Fy. eapply (i_ka _ _ _ I); eassumption.
    + intros t y p0 e0 Hy Fy Ay. destruct (fset_cases F x true y) as [[-> _]|[N Y]].
      * exists i. split; [exact Hi|]. rewrite TH, fset_same. reflexivity.
      * rewrite Y in Fy. destruct (i_cu _ _ _ I _ _ _ _ Hy Fy Ay) as (j & J1 & J2). exists j. split; [exact J1|]. rewrite TH, fset_other by congruence. exact J2.
    + intros l' r' y p0 e0 Hy B1 B2 Fy. destruct (fset_cases F x true y) as [[_ Y]|[N Y]]; [congruence|]. rewrite Y in Fy. destruct (i_cw _ _ _ I _ _ _ _ _ Hy B1 B2 Fy) as (j & J1 & J2). exists j. split; [exact J1|]. apply WE. split; [|exact J2].
      intros ->. unfold works in J2. rewrite E in J2. destruct J2 as [W'|[[v W']|[v W']]]; congruence.
    + intros k q Hk Ek. rewrite TH. destruct (leaf_at k Hk) as (q' & z & pq & eq & Eq & Hq). assert (q' = q) by congruence. subst q'.
      assert (Nq : q <> x) by (intros ->; destruct (same _ _ _ _ _ _ _ Hq Hx) as (Y & _); discriminate). rewrite (fset_other F x true q) by exact Nq.
      destruct (fset_cases (thr s) i (Up x) k) as [[-> X]|[N X]]; rewrite X; [|apply (i_st _ _ _ I); assumption]. split; [discriminate|]. intro Fq. apply (proj2 (i_st _ _ _ I _ q Hk Ek)) in Fq. congruence.
    + intros j Hj. rewrite TH, fset_other by (intros ->; contradiction). apply (i_out _ _ _ I). exact Hj.
  - unfold pot. cbn [thr s']. rewrite (csum_fset nb F x true) by (exact (zr_nodup _ _) || exact (in_node _ _ _ _ Hx)). rewrite (csum_fset rank (thr s) i) by (exact (zr_nodup _ _) || exact (proj2 (zr_in 0 nl i) Hi)).
    rewrite E, Fx. cbn [nb rank]. lia.
Qed.
Lemma step_ok F A s i : Inv F A s -> exists F' A' s', step dim prs b i s = Some s' /\ Inv F' A' s' /\ (if match thr s i with Done => true | _ => false end then s' = s /\ pot F' A' s' = pot F A s else pot F' A' s' < pot F A s).
Proof.
  intro I. destruct (thr s i) as [|c|x|x v|x v|] eqn:E.
  - destruct (step_start F A s i I E) as (F' & s' & X). exists F', A, s'. exact X.
  - destruct (step_up F A s i c I E) as (A' & s' & X). exists F, A', s'. exact X.
  - destruct (step_rdl F A s i x I E) as (s' & X). exists F, A, s'. exact X.
  - destruct (step_rdr F A s i x v I E) as (s' & X). exists F, A, s'. exact X.
  - destruct (step_wr F A s i x v I E) as (F' & s' & X). exists F', A, s'. exact X.
  - exists F, A, s. split; [unfold step; rewrite E; reflexivity|]. auto.
Qed.
Lemma init_ok : Inv (fun _ => false) (fun _ => false) (init b).
Proof.
  assert (TH : forall i, thr (init b) i = Start \/ thr (init b) i = Done) by (intro i; cbn; destruct ((0 <=? i) && (i <? nl)); auto).
  assert (NW : forall i x, ~ works (init b) i x) by (intros i x W; unfold works in W; destruct (TH i) as [X|X]; rewrite X in W; destruct W as [W|[[v W]|[v W]]]; discriminate).
  constructor; try discriminate.
  - intros i c E. destruct (TH i); congruence.
  - intros i j c E. destruct (TH i); congruence.
  - intros i x W. destruct (NW _ _ W).
  - intros i j x W. destruct (NW _ _ W).
  - reflexivity.
  - intros k q Hk _. cbn. replace ((0 <=? k) && (k <? nl)) with true by lia. tauto.
  - intros i Hi. cbn. replace ((0 <=? i) && (i <? nl)) with false by lia. reflexivity.
Qed.
Lemma final F A s : Inv F A s -> (forall i, thr s i = Done) -> forall t x p e, node t x p e -> F x = true /\ A x = true.
Proof.
  intros I D. assert (FA : forall t x p e, node t x p e -> F x = true -> A x = true).
  { intros t x p e Hx Fx. destruct (A x) eqn:Ax; [reflexivity|]. destruct (i_cu _ _ _ I _ _ _ _ Hx Fx Ax) as (j & _ & J). rewrite D in J. discriminate. }
  induction t as [z|l IHl r IHr]; intros x p e Hx.
  - assert (Fx : F x = true); [|eauto]. destruct (leaf_find _ _ _ _ _ _ _ _ Hx) as (k & K1 & K2). destruct (F x) eqn:Fx; [reflexivity|].
    apply (i_st _ _ _ I (Z.of_nat k)) in Fx; [rewrite D in Fx; discriminate|lia|]. rewrite Hln by exact K1. exact K2.
  - destruct (kids _ _ _ _ _ Hx) as [K1 K2]. destruct (IHl _ _ _ K1) as [_ A1]. destruct (IHr _ _ _ K2) as [_ A2]. assert (Fx : F x = true); [|eauto]. destruct (F x) eqn:Fx; [reflexivity|].
    destruct (i_cw _ _ _ I _ _ _ _ _ Hx A1 A2 Fx) as (j & _ & J). unfold works in J. rewrite D in J. destruct J as [W|[[v W]|[v W]]]; discriminate.
Qed.
Lemma run_ok sched : forall F A s, Inv F A s -> exists F' A' s', run dim prs b sched s = Some s' /\ Inv F' A' s' /\ pot F' A' s' <= pot F A s.
Proof.
  induction sched as [|i r IH]; intros F A s I; cbn [run].
  - exists F, A, s. split; [reflexivity|]. split; [exact I|lia].
  - destruct (step_ok F A s i I) as (F1 & A1 & s1 & E1 & I1 & P1). rewrite E1. cbn [obind]. destruct (IH F1 A1 s1 I1) as (F2 & A2 & s2 & E2 & I2 & P2). exists F2, A2, s2. split; [exact E2|]. split; [exact I2|].
    destruct (thr s i); lia.
Qed.
Lemma pot_nonneg F A s : 0 <= pot F A s.
Proof.
  unfold pot. pose proof (csum_nonneg (fun x => nb (F x)) (zr 0 (size T)) ltac:(intro x; unfold nb; destruct (F x); lia)) as H1. pose proof (csum_nonneg (fun x => nb (A x)) (zr 0 (size T)) ltac:(intro x; unfold nb; destruct (A x); lia)) as H2.
  pose proof (csum_nonneg (fun x => rank (thr s x)) (zr 0 nl) ltac:(intro x; cbv beta; destruct (thr s x); cbn; lia)) as H3. cbv beta in *. repeat apply Z.add_nonneg_nonneg; assumption.
Qed.
Lemma pot_init : pot (fun _ => false) (fun _ => false) (init b) <= 8 * size T.
Proof.
  unfold pot. pose proof (csum_le (fun x => nb false) (zr 0 (size T)) 4 ltac:(intro; cbn; lia)) as H1. rewrite zr_length in H1. pose proof (size_pos T).
  pose proof (csum_le (fun i => rank (thr (init b) i)) (zr 0 nl) 0 ltac:(intro i; cbv beta; cbn [init thr]; destruct ((0 <=? i) && (i <? nl)); cbn; lia)) as H3. rewrite Z2Nat.id in H1 by lia. cbv beta in *.
  set (u := csum _ _) in *. set (v := csum _ (zr 0 nl)) in *. lia.
Qed.

(** fair rounds finish *)
Definition alldone (s : state) : Prop := forall i, thr s i = Done.
Lemma run_app l1 : forall l2 s, run dim prs b (l1 ++ l2) s = obind (run dim prs b l1 s) (run dim prs b l2).
Proof. induction l1 as [|i l1 IH]; intros l2 s; cbn [app run obind]; [reflexivity|]. destruct (step dim prs b i s); cbn [obind]; [apply IH|reflexivity]. Qed.
Lemma dec_done F A s : Inv F A s -> alldone s \/ exists i, 0 <= i < nl /\ thr s i <> Done.
Proof.
  intro I. assert (X : (forall i, In i (zr 0 nl) -> thr s i = Done) \/ exists i, In i (zr 0 nl) /\ thr s i <> Done).
  { induction (zr 0 nl) as [|a l IH]; [left; intros i []|]. destruct IH as [IH|(i & I1 & I2)]; [|right; exists i; split; [right; exact I1|exact I2]].
    destruct (thr s a) eqn:E; try (right; exists a; split; [left; reflexivity|congruence]). left. intros i [->|Hi]; auto. }
  destruct X as [X|(i & I1 & I2)].
  - left. intro i. destruct (Z_lt_ge_dec i 0) as [Y|Y]; [apply (i_out _ _ _ I); lia|]. destruct (Z_lt_ge_dec i nl) as [Y'|Y']; [apply X; apply zr_in; lia|apply (i_out _ _ _ I); lia].
  - right. exists i. apply zr_in in I1. auto.
Qed.
Lemma round_ok r : forall F A s, Inv F A s -> (exists i, In i r /\ thr s i <> Done) -> exists F' A' s', run dim prs b r s = Some s' /\ Inv F' A' s' /\ pot F' A' s' < pot F A s.
Proof.
  induction r as [|a r IH]; intros F A s I (i & I1 & I2); [destruct I1|]. cbn [run]. destruct (step_ok F A s a I) as (F1 & A1 & s1 & E1 & H1 & P1). rewrite E1. cbn [obind].
  destruct (thr s a) eqn:Ea; cbv iota in P1.
  all: try (destruct (run_ok r F1 A1 s1 H1) as (F2 & A2 & s2 & E2 & H2 & P2); exists F2, A2, s2; split; [exact E2|]; split; [exact H2|]; lia).
  destruct P1 as [-> P1]. destruct I1 as [->|I1]; [congruence|]. destruct (IH F1 A1 s H1 ltac:(eauto)) as (F2 & A2 & s2 & E2 & H2 & P2). exists F2, A2, s2. split; [exact E2|]. split; [exact H2|]. lia.
Qed.
Lemma done_run r : forall F A s, Inv F A s -> alldone s -> run dim prs b r s = Some s.
Proof. induction r as [|a r IH]; intros F A s I D; cbn [run]; [reflexivity|]. unfold step at 1. rewrite D. cbn [obind]. eapply IH; eassumption. Qed.
Lemma rounds_ok rs : Forall (fun r => forall i, 0 <= i < nl -> In i r) rs -> forall F A s, Inv F A s -> pot F A s <= Z.of_nat (length rs) ->
  exists F' A' s', run dim prs b (concat rs) s = Some s' /\ Inv F' A' s' /\ alldone s'.
Proof.
  induction 1 as [|r rs Hr _ IH]; intros F A s I P; cbn [concat length] in *.
  - exists F, A, s. split; [reflexivity|]. split; [exact I|]. destruct (dec_done F A s I) as [X|(i & I1 & I2)]; [exact X|]. destruct (step_ok F A s i I) as (F1 & A1 & s1 & _ & _ & P1). pose proof (pot_nonneg F1 A1 s1). destruct (thr s i); try lia. congruence.
  - destruct (dec_done F A s I) as [X|(i & I1 & I2)].
    + exists F, A, s. split; [|auto]. apply (done_run _ F A s I X).
    + rewrite run_app. destruct (round_ok r F A s I) as (F1 & A1 & s1 & E1 & H1 & P1); [exists i; auto|]. rewrite E1. cbn [obind]. apply (IH F1 A1 s1 H1). lia.
Qed.
Lemma refit_boxed rs : Forall (fun r => forall i, 0 <= i < nl -> In i r) rs -> 8 * size T <= Z.of_nat (length rs) ->
  exists s, run dim prs b (concat rs) (init b) = Some s /\ alldone s /\ forall t x p e, node t x p e -> obvs s x = Some (ubox t).
Proof.
  intros HR HS. pose proof pot_init. destruct (rounds_ok rs HR _ _ _ init_ok ltac:(lia)) as (F & A & s & E & I & D). exists s. split; [exact E|]. split; [exact D|]. intros t x p e H'. apply (i_box _ _ _ I _ _ _ _ H'). apply (final _ _ _ I D _ _ _ _ H').
Qed.
Lemma done_boxed sched s : run dim prs b sched (init b) = Some s -> alldone s -> forall t x p e, node t x p e -> obvs s x = Some (ubox t).
Proof.
  intros E D. destruct (run_ok sched _ _ _ init_ok) as (F & A & s' & E' & I & _). rewrite E in E'. injection E' as <-. intros t x p e H'. apply (i_box _ _ _ I _ _ _ _ H'). apply (final _ _ _ I D _ _ _ _ H').
Qed.
End Refit.
