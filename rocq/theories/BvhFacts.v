(** Facts about the nodes of the whole radix tree. *)
From Verif Require Import Prelude BvhModel BvhBits BvhTopo BvhTree.
Open Scope Z_scope.

Lemma sub_all t : forall s i j B par ppos ch esc b, In b (all t s i j B par ppos ch esc) ->
  incl (all (nt b) (ns b) (ni b) (nj b) (nB b) (npar b) (nppos b) (nch b) (nesc b)) (all t s i j B par ppos ch esc).
Proof.
  induction t as [k|s0 i0 j0 g l IHl r IHr]; intros s i j B par ppos ch esc b Hb; cbn [all] in Hb.
  - destruct Hb as [<-|[]]. cbn. apply incl_refl.
  - destruct Hb as [<-|Hb]; [apply incl_refl|]. cbn [all]. apply incl_tl. apply in_app_or in Hb. destruct Hb as [Hb|Hb]; [apply incl_appl, IHl, Hb|apply incl_appr, IHr, Hb].
Qed.
Lemma all_pos t : forall s i j B par ppos ch esc, map nB (all t s i j B par ppos ch esc) = zr B (B + ksize t).
Proof.
  induction t as [k|s0 i0 j0 g l IHl r IHr]; intros; cbn [all map ksize].
  - rewrite zr_cons, zr_nil by lia. reflexivity.
  - pose proof (ksize_pos l). pose proof (ksize_pos r). rewrite map_app, IHl, IHr, (zr_cons B) by lia. f_equal. rewrite <- (zr_app (B + 1) (B + 1 + ksize l) (B + (1 + ksize l + ksize r))) by lia. f_equal. f_equal. lia.
Qed.
Lemma leftmost {mcs s i j t} : shape mcs s i j t -> forall B par ppos ch esc, exists a, In a (all t s i j B par ppos ch esc) /\ ni a = i /\ nj a = i /\ incl ch (nch a).
Proof.
  intro H. induction H as [s i Hc|s i j g l r Hc Hij Hg Hl IHl Hr IHr]; intros.
  - eexists. split; [apply all_head|]. cbn. split; [reflexivity|]. split; [reflexivity|]. apply incl_refl.
  - destruct (IHl (B + 1) (lab s i j) B (lab s i j :: ch) (B + 1 + ksize l)) as (a & A1 & A2 & A3 & A4). exists a. split; [cbn [all]; right; apply in_or_app; auto|]. split; [exact A2|]. split; [exact A3|].
    intros x Hx. apply A4. right. exact Hx.
Qed.
Lemma lc_le t k : lc t k <= Z.of_nat (length (labels t)).
Proof. induction t as [x|s i j g l IHl r IHr]; cbn [lc labels length]; [lia|]. rewrite app_length. destruct (i =? k); lia. Qed.
Lemma lc_nonneg t k : 0 <= lc t k.
Proof. induction t as [x|s i j g l IHl r IHr]; cbn [lc]; [lia|]. destruct (i =? k); lia. Qed.
Lemma ksize_labels {mcs s i j t} : shape mcs s i j t -> ksize t = 2 * (j - i) + 1.
Proof. intro H. induction H; cbn [ksize]; lia. Qed.
(** parent and place below it *)
Definition kid (b a : nd) : Prop :=
  npar a = nlab b /\ nppos a = nB b /\ exists g l r, nt b = KN (ns b) (ni b) (nj b) g l r /\ ((ns a = true /\ ni a = ni b /\ nj a = g) \/ (ns a = false /\ ni a = g + 1 /\ nj a = nj b)).
Lemma kid_all {mcs s i j t} : shape mcs s i j t -> forall B par ppos ch esc a, In a (all t s i j B par ppos ch esc) ->
  a = mkNd s i j t B par ppos ch esc \/ exists b, In b (all t s i j B par ppos ch esc) /\ ni b < nj b /\ kid b a.
Proof.
  intro H. induction H as [s i Hc|s i j g l r Hc Hij Hg Hl IHl Hr IHr]; intros B par ppos ch esc a Ha; cbn [all] in Ha.
  - destruct Ha as [<-|[]]. auto.
  - destruct Ha as [<-|Ha]; [auto|right]. apply in_app_or in Ha. destruct Ha as [Ha|Ha].
    + destruct (IHl _ _ _ _ _ _ Ha) as [->|(b & B1 & B2)].
      * eexists. split; [apply all_head|]. cbn [ni nj]. split; [exact Hij|]. split; [reflexivity|]. split; [reflexivity|]. exists g, l, r. cbn. auto.
      * exists b. split; [cbn [all]; right; apply in_or_app; auto|exact B2].
    + destruct (IHr _ _ _ _ _ _ Ha) as [->|(b & B1 & B2)].
      * eexists. split; [apply all_head|]. cbn [ni nj]. split; [exact Hij|]. split; [reflexivity|]. split; [reflexivity|]. exists g, l, r. cbn. auto.
      * exists b. split; [cbn [all]; right; apply in_or_app; auto|exact B2].
Qed.
(** offsets as sums *)
Fixpoint psum (f : Z -> Z) (k : nat) : Z := match k with O => 0 | S k' => psum f k' + f (Z.of_nat k') end.

Section Facts.
Variable mcs : list Z.
Notation n := (BvhModel.n mcs).
Hypothesis big : 1 < n.
Hypothesis rng : forall i, 0 <= i < n -> 0 <= cf mcs i < 2 ^ 32.
Hypothesis srt : forall i j, 0 <= i -> i <= j -> j < n -> cf mcs i <= cf mcs j.
Variable T : ktree.
Hypothesis sh : shape mcs false 0 (n - 1) T.
Definition L : list nd := all T false 0 (n - 1) 0 (-1) (-1) [] (-1).
Definition root : nd := mkNd false 0 (n - 1) T 0 (-1) (-1) [] (-1).
Definition depth (k : Z) : Z := 1 + lc T k.
Definition off (k : Z) : Z := psum depth (Z.to_nat k).
Lemma off_succ k : 0 <= k < n -> off (k + 1) = off k + depth k.
Proof. intro H. unfold off. replace (Z.to_nat (k + 1)) with (S (Z.to_nat k)) by lia. cbn [psum]. rewrite Z2Nat.id by lia. reflexivity. Qed.
Lemma L_root : In root L.
Proof. apply all_head. Qed.
Lemma L_in a : In a L -> shape mcs (ns a) (ni a) (nj a) (nt a) /\ 0 <= ni a /\ ni a <= nj a /\ nj a <= n - 1 /\ 0 <= nB a /\ nB a + ksize (nt a) <= 2 * n - 1.
Proof. intro H. destruct (all_in mcs sh _ _ _ _ _ _ H) as (A & B & C & _). rewrite (ksize_labels sh) in C. repeat split; try tauto; lia. Qed.
Lemma L_lab a : In a L -> ni a < nj a -> 0 <= nlab a < n - 1 /\ (nlab a = 0 -> a = root).
Proof.
  intros H X. destruct (all_in mcs sh _ _ _ _ _ _ H) as (A & B & C & D). destruct (D X) as [->|Y]; [|lia]. split; [|reflexivity]. unfold nlab. cbn. lia.
Qed.
Lemma L_leaf a : In a L -> ni a = nj a -> nt a = KL (ni a).
Proof. intros H E. destruct (L_in a H) as (A & _). inversion A; subst; [congruence|lia]. Qed.
Lemma L_trunk a : In a L -> ni a < nj a -> exists g l r, nt a = KN (ns a) (ni a) (nj a) g l r /\ split mcs (ni a) (nj a) g /\ ni a <= g < nj a.
Proof.
  intros H E. destruct (L_in a H) as (A & _). inversion A as [|? ? ? g l r Hc Hij Hg Hl Hr]; subst; [lia|]. exists g, l, r. split; [congruence|]. split; [exact Hg|exact (proj1 Hg)].
Qed.
Lemma L_range a : In a L -> ni a < nj a -> node_range mcs (nlab a) = Some (ni a, nj a).
Proof.
  intros H E. destruct (L_in a H) as (A & _). apply node_range_ok; auto. inversion A; subst; auto; lia.
Qed.
Lemma L_split a g l r : In a L -> nt a = KN (ns a) (ni a) (nj a) g l r -> find_split mcs (ni a) (nj a) = Some g.
Proof.
  intros H E. destruct (L_in a H) as (A & A1 & A2 & A3 & _). rewrite E in A. inversion A; subst. apply find_split_ok; auto; lia.
Qed.
(** both children of a node *)
Lemma L_kids a g l r : In a L -> nt a = KN (ns a) (ni a) (nj a) g l r ->
  exists b c, In b L /\ In c L /\ kid a b /\ kid a c /\ ni b = ni a /\ nj b = g /\ ni c = g + 1 /\ nj c = nj a /\ nB b = nB a + 1 /\ nB c = nB a + 1 + ksize l /\
    nt b = l /\ nt c = r /\ ns b = true /\ ns c = false.
Proof.
  intros H E. pose proof (sub_all T _ _ _ _ _ _ _ _ _ H) as S'. rewrite E in S'. cbn [all] in S'.
  eexists (mkNd true (ni a) g l (nB a + 1) (nlab a) (nB a) (nlab a :: nch a) (nB a + 1 + ksize l)), (mkNd false (g + 1) (nj a) r (nB a + 1 + ksize l) (nlab a) (nB a) [] (nesc a)).
  split; [apply S'; right; apply in_or_app; left; apply all_head|]. split; [apply S'; right; apply in_or_app; right; apply all_head|].
  cbn [ni nj nt nB ns]. split; [split; [reflexivity|]; split; [reflexivity|]; exists g, l, r; cbn; auto|]. split; [split; [reflexivity|]; split; [reflexivity|]; exists g, l, r; cbn; auto|]. auto 10.
Qed.
Lemma L_kid a : In a L -> a = root \/ exists b, In b L /\ ni b < nj b /\ kid b a.
Proof. apply (kid_all sh). Qed.
Lemma uniq_lab' a b : In a L -> In b L -> ni a < nj a -> ni b < nj b -> nlab a = nlab b -> a = b.
Proof. apply (uniq_lab mcs sh). Qed.
Lemma uniq_leaf' a b : In a L -> In b L -> ni a = nj a -> ni b = nj b -> ni a = ni b -> a = b.
Proof. apply (uniq_leaf mcs sh). Qed.
Lemma uniq_pos' a b : In a L -> In b L -> nB a = nB b -> a = b.
Proof. apply (uniq_pos mcs sh). Qed.
Lemma has_leaf k : 0 <= k < n -> exists a, In a L /\ ni a = k /\ nj a = k.
Proof. intro H. apply (cover_leaf mcs sh). lia. Qed.
Lemma labs_perm : Permutation (labels T) (zr 0 (n - 1)).
Proof. exact (labels_perm mcs sh). Qed.
Lemma has_trunk x : 0 <= x < n - 1 -> exists a, In a L /\ ni a < nj a /\ nlab a = x.
Proof. intro H. apply (labels_all mcs sh). eapply Permutation_in; [symmetry; apply labs_perm|]. apply zr_in. exact H. Qed.
Lemma has_pos p : 0 <= p < 2 * n - 1 -> exists a, In a L /\ nB a = p.
Proof.
  intro H. assert (X : In p (map nB L)).
  { unfold L. rewrite all_pos. rewrite (ksize_labels sh). apply zr_in. lia. }
  apply in_map_iff in X. destruct X as (a & E & Ha). eauto.
Qed.
Lemma in_chain b : In b L -> ni b < nj b -> exists a, In a L /\ ni a = ni b /\ nj a = ni b /\ In (nlab b) (nch a).
Proof.
  intros H E. destruct (L_trunk b H E) as (g & l & r & Et & _). destruct (L_kids b g l r H Et) as (c & _ & Hc & _ & _ & _ & C1 & _).
  pose proof (sub_all T _ _ _ _ _ _ _ _ _ H) as S'. rewrite Et in S'. cbn [all] in S'. destruct (L_in b H) as (A & _). rewrite Et in A. inversion A; subst.
  match goal with Hl : shape mcs true (ni b) g l |- _ => destruct (leftmost Hl (nB b + 1) (nlab b) (nB b) (nlab b :: nch b) (nB b + 1 + ksize l)) as (a & A1 & A2 & A3 & A4) end.
  exists a. split; [apply S'; right; apply in_or_app; left; exact A1|]. split; [exact A2|]. split; [exact A3|]. apply A4. left. reflexivity.
Qed.
Lemma counts0 : counts depth T 0 (n - 1) 0.
Proof. intros k Hk. unfold depth. destruct (k =? 0); lia. Qed.
Lemma L_pos a : In a L -> nB a = off (ni a) + Z.of_nat (length (nch a)).
Proof. intro H. eapply (pos_ok mcs depth off off_succ sh); [| |exact H]; cbn [length]; [exact counts0|reflexivity]. Qed.
Lemma L_depth a : In a L -> ni a = nj a -> depth (ni a) = 1 + Z.of_nat (length (nch a)).
Proof.
  intros H E. assert (X : counts depth (nt a) (ni a) (nj a) (Z.of_nat (length (nch a)))) by (eapply (pos_ok mcs depth off off_succ sh); [| |exact H]; cbn [length]; [exact counts0|reflexivity]).
  rewrite (X (ni a)) by lia. rewrite (L_leaf a H E). cbn [lc]. rewrite Z.eqb_refl. lia.
Qed.
Lemma L_esc a : In a L -> (nj a < n - 1 -> nesc a = off (nj a + 1)) /\ (nj a = n - 1 -> nesc a = -1).
Proof. intro H. eapply (esc_ok mcs depth off off_succ sh); [| | | |exact H]; cbn [length]; [exact counts0|reflexivity|lia|reflexivity]. Qed.
Lemma L_chain a : In a L -> chain_ok L a.
Proof.
  intro H. refine (proj2 (links_ok mcs L sh 0 (-1) (-1) [] (-1) (incl_refl _) _ _ a H)).
  - left. auto.
  - split; [intros ? ? X; discriminate|]. intros [|q] p X; discriminate.
Qed.
Lemma depth_bnd k : 1 <= depth k <= n.
Proof. unfold depth. pose proof (lc_nonneg T k). pose proof (lc_le T k) as X. rewrite (Permutation_length labs_perm), zr_length in X. lia. Qed.
(** how often each first leaf is counted *)
Definition left_is (k x : Z) : bool := match node_range mcs x with Some (i, _) => i =? k | None => false end.
Lemma count_labels t s i j : shape mcs s i j t -> forall k, Z.of_nat (length (filter (left_is k) (labels t))) = lc t k.
Proof.
  intro H. induction H as [s i Hc|s i j g l r Hc Hij Hg Hl IHl Hr IHr]; intro k; cbn [labels lc filter]; [reflexivity|].
  unfold left_is at 1. rewrite (node_range_ok mcs big rng srt s i j Hc Hij). rewrite filter_app. destruct (i =? k); cbn [length]; rewrite app_length; specialize (IHl k); specialize (IHr k); lia.
Qed.
Lemma count_order o k : Permutation o (zr 0 (n - 1)) -> 1 + Z.of_nat (length (filter (left_is k) o)) = depth k.
Proof.
  intro P. unfold depth. rewrite <- (count_labels T _ _ _ sh k). f_equal. f_equal. rewrite <- labs_perm in P. clear - P. induction P as [|x a b P IH|x y a|a b c P1 IH1 P2 IH2]; cbn [filter]; try reflexivity; try congruence.
  - destruct (left_is k x); cbn [length]; congruence.
  - destruct (left_is k x), (left_is k y); reflexivity.
Qed.
End Facts.
