(** C34, C35, C36: refit and queries of the linear BVH, on the tree left by build (C33). *)
From Verif Require Import Prelude BvsModel BvsSpec BvsProofs BvhModel BvhSpec BvhTree BvhProps BvhQSpec BvhQModel BvhQProofs BvhRefit BvhQProofs2.
From Coq Require Import Sorted.
Open Scope Z_scope.

(** the arrays of build (BvhModel) as the data members, with any contents of orderedBvs *)
Definition of_build (m : BvhModel.mem) (num : nat) (bv0 : Z -> option box) : bvh := mkBvh (m Levels) (m Aux) (m Parents) (m LInds) (Z.of_nat num) bv0.
(** build on more than two primitives: m is what the loops leave, for sorted codes and some order of the primitives, and any order of the
    iterations in each loop *)
Definition built (num : nat) (inds : list Z) (m : BvhModel.mem) : Prop :=
  exists mcs o1 o2 o3 o4 o5, (2 < length mcs)%nat /\ length mcs = num /\ Permutation inds (zr 0 (Z.of_nat num)) /\ Sorted Z.le mcs /\ (forall c, In c mcs -> 0 <= c < 2 ^ 32) /\
  Permutation o1 (zr 0 (n mcs)) /\ Permutation o2 (zr 0 (n mcs - 1)) /\ Permutation o3 (zr 0 (n mcs)) /\ Permutation o4 (zr 0 (n mcs)) /\ Permutation o5 (zr 0 (n mcs - 1)) /\
  build mcs inds o1 o2 o3 o4 o5 empty = Some (tt, m).
(** the tree t is what the arrays store, in pre-order *)
Definition stores (b : bvh) (t : tree) : Prop :=
  nleaves b = Z.of_nat (length (prims t)) /\
  (forall k l a p, nth_error (stored t 0 (-1) (-1)) k = Some (l, a, p) -> levels b (Z.of_nat k) = Some l /\ aux b (Z.of_nat k) = Some a /\ parents b (Z.of_nat k) = Some p) /\
  (forall k, (k < length (prims t))%nat -> linds b (Z.of_nat k) = nth_error (leaf_nodes t 0) k).
(** each thread gets at least one step in each round *)
Definition fair (num : nat) (rounds : list (list Z)) : Prop := Forall (fun r => forall i, 0 <= i < Z.of_nat num -> In i r) rounds.

Lemma built_stores num inds m bv0 : built num inds m -> exists t, stores (of_build m num bv0) t /\ prims t = inds /\ (2 < num)%nat /\ length inds = num.
Proof.
  intros (mcs & o1 & o2 & o3 & o4 & o5 & H1 & H2 & H3 & H4 & H5 & Q1 & Q2 & Q3 & Q4 & Q5 & E). assert (HL : length inds = num) by (rewrite (Permutation_length H3), zr_length; lia).
  destruct (C33_build_lays_out_tree_in_preorder mcs inds o1 o2 o3 o4 o5) as (m' & t & E' & Ep & A & B); auto; try lia. rewrite E in E'. injection E' as <-. exists t. split; [|repeat split; auto; lia].
  split; [|split]; cbn [nleaves of_build levels aux parents linds]; [rewrite Ep, HL; reflexivity|exact A|]. intros k Hk. apply B. rewrite Ep in Hk. lia.
Qed.
Lemma stores_laid b t : stores b t -> laid b t 0 (-1) (-1).
Proof. intros (_ & H & _) k l a p E. rewrite Z.add_0_l. exact (H k l a p E). Qed.
Lemma leaves_size t : size t = 2 * Z.of_nat (length (prims t)) - 1.
Proof. induction t as [q|l IHl r IHr]; cbn [size prims]; [cbn; lia|rewrite app_length; lia]. Qed.
Lemma perm_in (prs : list box) inds : Permutation inds (zr 0 (Z.of_nat (length prs))) -> forall p, In p inds -> (Z.to_nat p < length prs)%nat.
Proof. intros P p H. apply (Permutation_in _ P) in H. apply zr_in in H. lia. Qed.
Lemma built_perm num inds m : built num inds m -> Permutation inds (zr 0 (Z.of_nat num)).
Proof. intros (mcs & o1 & o2 & o3 & o4 & o5 & _ & _ & H & _). exact H. Qed.
Lemma ne_pb dim prs inds : Permutation inds (zr 0 (Z.of_nat (length prs))) -> Forall (nonempty dim) prs -> forall p, In p inds -> nonempty dim (pb prs p).
Proof. intros P F p H. rewrite Forall_forall in F. apply F. unfold pb. apply nth_In. eapply perm_in; eassumption. Qed.
Lemma sub_prims t pos par esc t' x p e : sub t pos par esc t' x p e -> incl (prims t') (prims t).
Proof. intro H. induction H as [|l r pos par esc t' x p e H IH|l r pos par esc t' x p e H IH]; cbn [prims]; intros z Hz; [exact Hz|apply in_or_app; left; auto|apply in_or_app; right; auto]. Qed.

(** whatever the interleaving of the leaf threads, no step is undefined; when all threads have finished, the box of every node is the
    smallest one containing the boxes of the primitives below it; and they have all finished after 8 steps per node of each thread *)
Theorem C36_refit_boxes_every_schedule dim prs inds m bv0 : built (length prs) inds m -> Forall (nonempty dim) prs ->
  let b := of_build m (length prs) bv0 in
  exists t, stores b t /\ prims t = inds /\
    (forall sched, exists s, run dim prs b sched (init b) = Some s /\
       ((forall i, thr s i = Done) -> forall t' x p e, sub t 0 (-1) (-1) t' x p e -> exists bx, obvs s x = Some bx /\ hull dim (map (fun p => nth (Z.to_nat p) prs ([], [])) (prims t')) bx)) /\
    (forall rounds, fair (length prs) rounds -> 8 * size t <= Z.of_nat (length rounds) -> exists s, run dim prs b (concat rounds) (init b) = Some s /\ forall i, thr s i = Done).
Proof.
  intros B F b. destruct (built_stores _ _ _ bv0 B) as (t & S1 & Ep & _ & HL). exists t. split; [exact S1|]. split; [exact Ep|]. pose proof (stores_laid _ _ S1) as L. destruct S1 as (S0 & _ & S2). pose proof (built_perm _ _ _ B) as P. fold b in S0, S2, L.
  assert (Hp : forall p, In p (prims t) -> (Z.to_nat p < length prs)%nat) by (rewrite Ep; apply perm_in; exact P).
  assert (NE : forall t' x p e, sub t 0 (-1) (-1) t' x p e -> forall q, In q (prims t') -> nonempty dim (pb prs q)) by (intros t' x p e H q Hq; eapply ne_pb; [exact P|exact F|]; rewrite <- Ep; eapply sub_prims; eassumption).
  split.
  - intro sched. destruct (run_ok dim prs b t L S2 S0 Hp sched _ _ _ (init_ok dim prs b t)) as (F' & A' & s & E & I & _). exists s. split; [exact E|]. intros D t' x p e H. exists (ubox dim (pb prs) t'). split.
    + eapply done_boxed; try eassumption. 
    + apply ubox_hull. eapply NE. exact H.
  - intros rounds HR HS. destruct (refit_boxed dim prs b t L S2 S0 Hp rounds) as (s & E & D & _); [exact HR|exact HS|]. exists s. auto.
Qed.
Print Assumptions C36_refit_boxes_every_schedule.

(** a BVH over the primitives prs, built and refitted (possibly to other boxes than those it was built for); ids is the order of its leaves *)
Inductive ready (dim : nat) (prs : list box) : list Z -> bvh -> Prop :=
| ready_small b b0 sched : (length prs <= 2)%nat -> nleaves b0 = Z.of_nat (length prs) -> refit dim prs b0 sched = Some b -> ready dim prs (zr 0 (Z.of_nat (length prs))) b
| ready_big b inds m bv0 rounds : built (length prs) inds m -> fair (length prs) rounds -> 8 * (2 * Z.of_nat (length prs) - 1) <= Z.of_nat (length rounds) ->
    refit dim prs (of_build m (length prs) bv0) (concat rounds) = Some b -> ready dim prs inds b.
Definition small_facts (prs : list box) (b : bvh) : Prop := (length prs <= 2)%nat /\ numNodes b = Z.of_nat (length prs) /\ forall k, bvs b (Z.of_nat k) = nth_error prs k.
Definition big_facts (dim : nat) (prs : list box) (ids : list Z) (b : bvh) (t : tree) : Prop :=
  stores b t /\ prims t = ids /\ boxed dim (pb prs) b t 0 (-1) (-1) /\ numNodes b = size t /\ (2 < length prs)%nat.
Lemma ready_facts dim prs ids b : ready dim prs ids b -> Permutation ids (zr 0 (Z.of_nat (length prs))) /\ (small_facts prs b /\ ids = zr 0 (Z.of_nat (length prs)) \/ exists t, big_facts dim prs ids b t).
Proof.
  intros [b' b0 sched Hs En E|b' inds m bv0 rounds B HR HS E].
  - split; [reflexivity|]. left. split; [|reflexivity]. unfold refit in E. rewrite En, Z.eqb_refl in E. cbn [negb] in E. replace (Z.of_nat (length prs) <=? 2) with true in E by lia. injection E as <-. split; [exact Hs|]. split.
    + unfold numNodes. cbn [nleaves]. replace (2 <? Z.of_nat (length prs)) with false by lia. reflexivity.
    + intro k. cbn [bvs]. replace (Z.of_nat k <? 0) with false by lia. rewrite Nat2Z.id. reflexivity.
  - pose proof (built_perm _ _ _ B) as P. split; [exact P|]. right. destruct (built_stores _ _ _ bv0 B) as (t & S1 & Ep & Hn & HL). exists t. pose proof (stores_laid _ _ S1) as L. pose proof S1 as (S0 & _ & S2). set (b0 := of_build m (length prs) bv0) in *.
    assert (Hp : forall p, In p (prims t) -> (Z.to_nat p < length prs)%nat) by (rewrite Ep; apply perm_in; exact P).
    assert (ES : size t = 2 * Z.of_nat (length prs) - 1) by (rewrite leaves_size, Ep, HL; reflexivity).
    destruct (refit_boxed dim prs b0 t L S2 S0 Hp rounds HR ltac:(lia)) as (s & Er & D & HB).
    assert (EN : nleaves b0 = Z.of_nat (length prs)) by reflexivity. unfold refit in E. rewrite EN, Z.eqb_refl in E. cbn [negb] in E. replace (Z.of_nat (length prs) <=? 2) with false in E by lia. rewrite Er in E. cbn [obind] in E. injection E as <-.
    split; [exact S1|]. split; [exact Ep|]. split; [exact HB|]. split; [|exact Hn]. unfold numNodes. cbn [nleaves]. replace (nleaves b0) with (Z.of_nat (length prs)) by reflexivity. replace (2 <? Z.of_nat (length prs)) with true by lia. lia.
Qed.
Lemma linear_ok b prs test stop : (forall k, bvs b (Z.of_nat k) = nth_error prs k) -> forall m i, (i + m = length prs)%nat ->
  linear b test stop m (Z.of_nat i) = Some (until stop (filter (fun p => test (pb prs p)) (zr (Z.of_nat i) (Z.of_nat (length prs))))).
Proof.
  intro H. induction m as [|m IH]; intros i Hi; cbn [linear].
  - rewrite zr_nil by lia. reflexivity.
  - rewrite zr_cons by lia. cbn [filter]. unfold hit. rewrite H. rewrite (nth_error_nth' prs ([], [])) by lia. cbn [obind]. unfold pb at 1. rewrite Nat2Z.id. replace (Z.of_nat i + 1) with (Z.of_nat (S i)) by lia.
    destruct (test (nth i prs ([], []))); [|apply IH; lia]. cbn [until]. destruct (stop (Z.of_nat i)); [reflexivity|]. rewrite IH by lia. reflexivity.
Qed.
Lemma query_ok dim prs ids b test stop : ready dim prs ids b -> monotone dim test -> iter_neighbors b test stop = Some (until stop (filter (fun p => test (pb prs p)) ids)).
Proof.
  intros R M. apply ready_facts in R. destruct R as [P [[(Hs & Hn & Hb) ->]|(t & S1 & Ep & HB & HN & Hn)]]; unfold iter_neighbors.
  - rewrite Hn. replace (Z.of_nat (length prs) <=? 2) with true by lia. rewrite Nat2Z.id. apply (linear_ok b prs test stop Hb (length prs) 0). reflexivity.
  - pose proof (leaves_size t) as ES. rewrite Ep in ES. rewrite (Permutation_length P), zr_length in ES. replace (numNodes b <=? 2) with false by lia. unfold qfuel. rewrite HN. pose proof (walk_ok dim (pb prs) b test stop (mono_join dim test M) (-1) t 0 (-1) (-1) 1 []) as W.
    rewrite app_nil_r in W. unfold hits in W. rewrite Ep in W. apply W; auto using stores_laid; try lia. apply walk_end; lia.
Qed.
(** any test that can only become true on a larger box (overlap with a box or sphere or point, intersection with a ray): exactly the
    primitives passing it are reported, each once, in the order of the leaves, up to the one whose callback asks to stop *)
Theorem C34_monotone_query dim prs ids b test stop : ready dim prs ids b -> monotone dim test ->
  Permutation ids (zr 0 (Z.of_nat (length prs))) /\
  iter_neighbors b test stop = Some (until stop (filter (fun p => test (nth (Z.to_nat p) prs ([], []))) ids)).
Proof. intros R M. split; [apply (ready_facts _ _ _ _ R)|]. exact (query_ok _ _ _ _ _ _ R M). Qed.
Print Assumptions C34_monotone_query.
Lemma of_to ids num : Permutation ids (zr 0 (Z.of_nat num)) -> ids = map Z.of_nat (map Z.to_nat ids).
Proof.
  intro P. rewrite map_map. rewrite <- (map_id ids) at 1. apply map_ext_in. intros x Hx. apply (Permutation_in _ P), zr_in in Hx. lia.
Qed.
Lemma filter_map {A B} (f : A -> B) (g : B -> bool) l : filter g (map f l) = map f (filter (fun x => g (f x)) l).
Proof. induction l as [|x l IH]; cbn [map filter]; [reflexivity|]. rewrite IH. destruct (g (f x)); reflexivity. Qed.
Lemma nat_ids ids num : Permutation ids (zr 0 (Z.of_nat num)) -> Permutation (map Z.to_nat ids) (seq 0 num).
Proof. intro P. rewrite P. unfold zr. rewrite map_map. rewrite Z.sub_0_r, Nat2Z.id. rewrite (map_ext _ (fun x => x)) by (intro; lia). rewrite map_id. reflexivity. Qed.
Theorem C34_iter_neighbors_exact dim prs ids b q : ready dim prs ids b -> Forall (nonempty dim) prs -> nonempty dim q ->
  exists out, exact_hits dim prs q out /\ forall stop, iter_neighbors b (fun c => overlaps dim c q) stop = Some (until stop (map Z.of_nat out)).
Proof.
  intros R F Nq. exists (filter (fun k => overlaps dim (nth k prs ([], [])) q) (map Z.to_nat ids)). destruct (ready_facts _ _ _ _ R) as [P _]. split.
  - split; [apply NoDup_filter; eapply Permutation_NoDup; [symmetry; eapply nat_ids; exact P|apply seq_NoDup]|]. intro k. rewrite filter_In. rewrite Forall_forall in F. split.
    + intros [H1 H2]. apply (Permutation_in _ (nat_ids _ _ P)), in_seq in H1. exists (nth k prs ([], [])). split; [apply nth_error_nth'; lia|]. apply overlaps_meet in H2; [exact H2| |exact Nq]. apply F, nth_In. lia.
    + intros (bx & E & H). pose proof (nth_error_some_lt _ _ _ E) as Lk. split; [apply (Permutation_in _ (Permutation_sym (nat_ids _ _ P))); apply (proj2 (in_seq _ _ _)); split; [apply Nat.le_0_l|exact Lk]|]. rewrite (nth_error_nth _ _ _ E). apply overlaps_meet; [apply F; eapply nth_error_In; exact E|exact Nq|exact H].
  - intro stop. rewrite (query_ok _ _ _ _ _ _ R (overlaps_mono dim q)). do 2 f_equal. rewrite (of_to _ _ P) at 1. rewrite filter_map. f_equal. apply filter_ext. intro k. unfold pb. rewrite Nat2Z.id. reflexivity.
Qed.
Print Assumptions C34_iter_neighbors_exact.
Lemma sub_esc t pos par esc t' x p e : sub t pos par esc t' x p e -> forall par' esc', exists p' e', sub t pos par' esc' t' x p' e'.
Proof.
  intro H. induction H as [|l r pos par esc t' x p e H IH|l r pos par esc t' x p e H IH]; intros par' esc'; [do 2 eexists; constructor| |].
  - exists p, e. apply sub_left. exact H.
  - destruct (IH pos esc') as (p' & e' & X). exists p', e'. apply sub_right. exact X.
Qed.
(** queries restricted to the subtree at any node; with a front, the nodes recorded are those where the traversal stopped descending: they
    partition the subtree's primitives, and each is a leaf or fails the test *)
Theorem C34_subtree_query dim prs ids b : ready dim prs ids b -> (2 < length prs)%nat -> exists t, stores b t /\ prims t = ids /\
  forall t' x p e test, sub t 0 (-1) (-1) t' x p e -> monotone dim test ->
    let found := filter (fun p => test (nth (Z.to_nat p) prs ([], []))) (prims t') in
    (forall stop, iter_treelet b test stop x = Some (until stop found)) /\
    exists cs, iter_front b test x = Some (found, map snd cs) /\ flat_map (fun c => prims (fst c)) cs = prims t' /\
      Forall (fun c => (exists p' e', sub t' x p e (fst c) (snd c) p' e') /\
        ((exists q, fst c = Leaf q) \/ exists bx, bvs b (snd c) = Some bx /\ test bx = false)) cs.
Proof.
  intros R Hn. apply ready_facts in R. destruct R as [P [[(Hs & _) _]|(t & S1 & Ep & HB & HN & _)]]; [lia|]. exists t. split; [exact S1|]. split; [exact Ep|]. intros t' x p e test H M found.
  pose proof (laid_sub _ _ _ _ _ _ _ _ _ H (stores_laid _ _ S1)) as L. assert (HB' : boxed dim (pb prs) b t' x p e) by (intros t2 x2 p2 e2 H2; apply (HB t2 x2 p2 e2); eapply sub_trans; eassumption).
  pose proof (sub_rng _ _ _ _ _ _ _ _ H) as [R1 R2]. rewrite Z.add_0_l in R2. pose proof (size_pos t') as Sp.
  assert (ES : size t = 2 * Z.of_nat (length prs) - 1) by (rewrite leaves_size, Ep, (Permutation_length P), zr_length; lia).
  assert (EE : e = x + size t' \/ (e = -1 /\ x + size t' = size t)).
  { assert (G : forall t pos par esc t' x p e, sub t pos par esc t' x p e -> forall n, (esc = pos + size t \/ (esc = -1 /\ pos + size t = n)) -> (e = x + size t' \/ (e = -1 /\ x + size t' = n))).
    { clear. intros t pos par esc t' x p e H. induction H as [|l r pos par esc t' x p e H IH|l r pos par esc t' x p e H IH]; intros n D; [exact D|apply IH; left; reflexivity|]. apply IH. cbn [size] in D. destruct D as [D|D]; [left|right]; lia. }
    apply (G _ _ _ _ _ _ _ _ H). right. lia. }
  assert (ED : exists lv ed, levels b x = Some lv /\ (if negb (lv =? 0) then aux b x else Some (x + 1)) = Some ed /\ (e = x + size t' /\ ed = x + size t' \/ (ed = -1 /\ e = -1 /\ x + size t' = size t) \/ (ed = x + size t' /\ exists q, t' = Leaf q))).
  { destruct t' as [q|l r].
    - apply laid_leaf in L. exists 0, (x + 1). cbn. split; [tauto|]. split; [reflexivity|]. right. right. split; [reflexivity|eauto].
    - apply laid_node in L. destruct L as ((L1 & L2 & _) & _). pose proof (spine_nonneg l). exists (1 + spine l), e. split; [exact L1|]. replace (1 + spine l =? 0) with false by lia. cbn [negb]. split; [exact L2|]. destruct EE as [EE|EE]; [left|right; left]; lia. }
  destruct ED as (lv & ed & E1 & E2 & E3). assert (Hed : ed < x \/ x + size t' <= ed) by lia. assert (FIN : x + size t' = ed \/ x + size t' = numNodes b) by (rewrite HN; lia).
  (* a leaf may be viewed with any escape *)
  assert (VW : exists e', (e' = x + size t' \/ e' = ed /\ x + size t' = numNodes b) /\ laid b t' x p e' /\ boxed dim (pb prs) b t' x p e').
  { destruct E3 as [[A B]|[(A & B & C)|(A & q & ->)]].
    - exists e. rewrite HN. split; [lia|auto].
    - exists e. rewrite HN. split; [lia|auto].
    - exists (x + 1). split; [left; reflexivity|]. split; [exact L|]. intros t2 x2 p2 e2 H2. inversion H2; subst. apply (HB' _ _ _ _ (sub_self _ _ _ _)). }
  destruct VW as (e' & V1 & V2 & V3). rewrite <- HN in R2. split.
  - intro stop. unfold iter_treelet. replace (numNodes b <=? 2) with false by lia. rewrite E1. cbn [obind]. rewrite E2. cbn [obind]. unfold qfuel.
    apply walk_mono' with (f := S (1 + Z.to_nat (size t'))); [lia|]. pose proof (walk_ok dim (pb prs) b test stop (mono_join dim test M) ed t' x p e' 1 []) as W. rewrite app_nil_r in W. apply W; auto; try lia. apply walk_end; auto; lia.
  - exists (cut dim (pb prs) test t' x p e'). split; [|split].
    + unfold iter_front. rewrite E1. cbn [obind]. rewrite E2. cbn [obind]. unfold qfuel. apply front_mono' with (f := S (1 + Z.to_nat (size t'))); [lia|].
      pose proof (front_ok dim (pb prs) b test (mono_join dim test M) ed t' x p e' 1 [] []) as W. rewrite !app_nil_r in W. apply W; auto; try lia. apply front_end; auto; lia.
    + apply cut_prims.
    + apply Forall_forall. intros [c y] Hc. cbn [fst snd]. apply cut_sub in Hc. destruct Hc as [(p1 & e1 & X) Y]. destruct (sub_esc _ _ _ _ _ _ _ _ X p e) as (p2 & e2 & X2). split; [eauto|]. destruct Y as [Y|Y]; [left; exact Y|right]. exists (ubox dim (pb prs) c). split; [exact (HB' _ _ _ _ X2)|exact Y].
Qed.
Print Assumptions C34_subtree_query.

Lemma near_linear_ok b dim p prs : (forall k, bvs b (Z.of_nat k) = nth_error prs k) -> forall m i, (i + m = length prs)%nat -> forall d id,
  near_linear b dim p m (Z.of_nat i) d id = Some (fold_left (better dim (pb prs) p) (zr (Z.of_nat i) (Z.of_nat (length prs))) (id, d)).
Proof.
  intro H. induction m as [|m IH]; intros i Hi d id; cbn [near_linear].
  - rewrite zr_nil by lia. reflexivity.
  - rewrite zr_cons by lia. cbn [fold_left]. rewrite H. rewrite (nth_error_nth' prs ([], [])) by lia. cbn [obind]. unfold better at 2. cbn [snd]. unfold pb at 2 3. rewrite Nat2Z.id. replace (Z.of_nat i + 1) with (Z.of_nat (S i)) by lia.
    destruct (point_dist2 dim p (nth i prs ([], [])) <? d); apply IH; lia.
Qed.
Lemma near_ok dim prs ids b p d i : ready dim prs ids b -> Forall (nonempty dim) prs -> find_nearest_point b dim p d i = Some (fold_left (better dim (pb prs) p) ids (i, d)).
Proof.
  intros R F. apply ready_facts in R. destruct R as [P [[(Hs & Hn & Hb) ->]|(t & S1 & Ep & HB & HN & Hn)]]; unfold find_nearest_point.
  - rewrite Hn. replace (Z.of_nat (length prs) <=? 2) with true by lia. rewrite Nat2Z.id. apply (near_linear_ok b dim p prs Hb (length prs) 0). reflexivity.
  - pose proof (leaves_size t) as ES. rewrite Ep in ES. rewrite (Permutation_length P), zr_length in ES. replace (numNodes b <=? 2) with false by lia. unfold qfuel. rewrite HN. pose proof (size_pos t).
    rewrite (near_S dim b p _ 0 (spine t)); [|lia|lia|eapply level_of'; apply stores_laid; exact S1|apply spine_nonneg].
    pose proof (nbody_ok dim (pb prs) b p t) as W. rewrite Ep in W. apply (W ltac:(apply ne_pb; assumption) 0 (-1) (-1) 1%nat (fun s => s)); auto using stores_laid; try lia. intros. apply near_end; lia.
Qed.
Lemma better_min dim prs p ids : forall s, let r := fold_left (better dim (pb prs) p) ids s in
  snd r <= snd s /\ (forall q, In q ids -> snd r <= point_dist2 dim p (pb prs q)) /\ (r = s \/ exists q, In q ids /\ r = (q, point_dist2 dim p (pb prs q))).
Proof.
  induction ids as [|q ids IH]; intros s; cbn [fold_left]; cbv zeta; [split; [lia|]; split; [intros q []|left; reflexivity]|]. specialize (IH (better dim (pb prs) p s q)). cbv zeta in IH. set (r := fold_left _ _ _) in *. destruct IH as (A & B & C). unfold better in A, C.
  destruct (Z.ltb_spec (point_dist2 dim p (pb prs q)) (snd s)) as [X|X].
  - cbn [snd] in A. split; [lia|]. split; [intros q' [<-|Hq]; [exact A|auto]|]. right. destruct C as [C|(q' & C1 & C2)]; [exists q; split; [left; reflexivity|exact C]|exists q'; split; [right; exact C1|exact C2]].
  - split; [exact A|]. split; [intros q' [<-|Hq]; [lia|auto]|]. destruct C as [C|(q' & C1 & C2)]; [left; exact C|right; exists q'; split; [right; exact C1|exact C2]].
Qed.
(** find_nearest_point: the smallest distance between p and a primitive's lower corner (point primitives), or the initial value *)
Theorem C34_nearest_point dim prs ids b p d0 i0 : ready dim prs ids b -> Forall (nonempty dim) prs ->
  exists i d, find_nearest_point b dim p d0 i0 = Some (i, d) /\ d <= d0 /\ (forall bx, In bx prs -> d <= sqdist dim p (fst bx)) /\
    (i = i0 /\ d = d0 \/ exists k bx, i = Z.of_nat k /\ nth_error prs k = Some bx /\ d = sqdist dim p (fst bx)).
Proof.
  intros R F. assert (EQ : forall bx, point_dist2 dim p bx = sqdist dim p (fst bx)) by (intro bx; unfold point_dist2, sqdist, bmin; f_equal; apply map_ext; intro a; cbv zeta; ring).
  rewrite (near_ok dim prs ids b p d0 i0 R F). destruct (better_min dim prs p ids (i0, d0)) as (A & B & C). destruct (fold_left _ ids (i0, d0)) as [i d]. cbn [snd] in *. exists i, d. split; [reflexivity|]. split; [exact A|]. destruct (ready_facts _ _ _ _ R) as [P _]. split.
  - intros bx Hb. apply In_nth_error in Hb. destruct Hb as [k Ek]. pose proof (nth_error_some_lt _ _ _ Ek) as Lk. rewrite <- EQ. rewrite <- (nth_error_nth _ _ ([], []) Ek). specialize (B (Z.of_nat k)). unfold pb in B. rewrite Nat2Z.id in B.
    apply B. apply (Permutation_in _ (Permutation_sym P)), zr_in. split; [lia|apply Nat2Z.inj_lt; exact Lk].
  - destruct C as [C|(q & C1 & C2)]; [left; injection C; auto|right]. injection C2 as -> ->. pose proof (Permutation_in _ P C1) as X. apply zr_in in X. exists (Z.to_nat q), (pb prs q). split; [lia|]. split; [apply nth_error_nth'; lia|apply EQ].
Qed.
Print Assumptions C34_nearest_point.

(** ** self queries *)
Lemma self_ok dim prs ids b k stop : ready dim prs ids b -> (2 < length prs)%nat -> (k < length prs)%nat -> exists q, nth_error ids k = Some q /\
  self_iter dim b stop (Z.of_nat k) = Some (until stop (filter (fun c => overlaps dim (pb prs c) (pb prs q)) (skipn k ids))) /\ (y <-? linds b (Z.of_nat k) ;; aux b y) = Some q.
Proof.
  intros R Hn Hk. apply ready_facts in R. destruct R as [P [[(Hs & _) _]|(t & S1 & Ep & HB & HN & _)]]; [lia|]. pose proof (stores_laid _ _ S1) as L. destruct S1 as (S0 & _ & S2).
  assert (Lk : (k < length (prims t))%nat) by (rewrite Ep, (Permutation_length P), zr_length; lia).
  destruct (leaf_idx t t 0 (-1) (-1) k Lk) as (y & p & e & Ey & q & Eq & Hy). exists q. rewrite <- Ep. split; [exact Eq|].
  assert (ES : size t = 2 * Z.of_nat (length prs) - 1) by (rewrite leaves_size, Ep, (Permutation_length P), zr_length; lia). pose proof (laid_sub _ _ _ _ _ _ _ _ _ Hy L) as Ly. apply laid_leaf in Ly. rewrite (S2 k Lk), Ey. split; [|cbn [obind]; tauto].
  unfold self_iter. replace (numNodes b <=? 2) with false by lia. rewrite (S2 k Lk), Ey. cbn [obind]. rewrite (HB _ _ _ _ Hy). cbn [obind ubox]. unfold qfuel. rewrite HN.
  pose proof (from_leaf dim (pb prs) b (fun c => overlaps dim c (pb prs q)) stop (mono_join _ _ (overlaps_mono dim (pb prs q))) (-1) t 0 (-1) (-1) 1 [] k y) as W. rewrite app_nil_r in W. apply W; auto; try lia. apply walk_end; lia.
Qed.
Lemma until_never l : until (fun _ => false) l = l.
Proof. induction l as [|x l IH]; cbn [until]; [|rewrite IH]; reflexivity. Qed.
(** the pairs (primitive of leaf k, reported primitive) over all leaves *)
Definition reported (ids : list nat) (outs : nat -> list nat) : list (nat * nat) := flat_map (fun k => map (pair (nth k ids 0%nat)) (outs k)) (seq 0 (length ids)).
Definition distinct (l : list (nat * nat)) : list (nat * nat) := filter (fun ij => negb (fst ij =? snd ij)%nat) l.
Definition reps (ov : nat -> nat -> bool) (ids : list nat) : list (nat * nat) := reported ids (fun k => filter (ov (nth k ids 0%nat)) (skipn k ids)).
Lemma reps_cons ov x r : reps ov (x :: r) = map (pair x) (filter (ov x) (x :: r)) ++ reps ov r.
Proof. unfold reps, reported. cbn [length seq flat_map nth skipn]. f_equal. rewrite <- seq_shift, flat_map_concat_map, map_map, <- flat_map_concat_map. reflexivity. Qed.
Lemma reps_pairs ov ids : NoDup ids -> distinct (reps ov ids) = pairs ov ids.
Proof.
  induction 1 as [|x r Hx Hr IH]; [reflexivity|]. rewrite reps_cons. unfold distinct in *. rewrite filter_app, IH. cbn [pairs]. f_equal.
  assert (X : filter (fun ij => negb (fst ij =? snd ij)%nat) (map (pair x) (filter (ov x) r)) = map (pair x) (filter (ov x) r)).
  { rewrite filter_map. f_equal. assert (Y : forall l, ~ In x l -> filter (fun y => negb (fst (x, y) =? snd (x, y))%nat) l = l).
    { clear. induction l as [|y l IH]; intro H; [reflexivity|]. cbn [filter fst snd] in *. cbn in H. replace (x =? y)%nat with false by (symmetry; apply Nat.eqb_neq; intros ->; tauto). cbn [negb]. f_equal. apply IH. tauto. }
    apply Y. rewrite filter_In. tauto. }
  cbn [filter]. destruct (ov x x); [|exact X]. cbn [map filter fst snd]. rewrite Nat.eqb_refl. cbn [negb]. exact X.
Qed.
Lemma reps_refl ov ids : (forall x, In x ids -> ov x x = true) -> forall x, In x ids -> In (x, x) (reps ov ids).
Proof.
  induction ids as [|y r IH]; intros H x Hx; [destruct Hx|]. rewrite reps_cons. apply in_or_app. destruct Hx as [<-|Hx].
  - left. apply in_map, filter_In. split; [left; reflexivity|]. apply H. left. reflexivity.
  - right. apply IH; [intros; apply H; right; assumption|exact Hx].
Qed.
Lemma reps_in ov ids : forall i j, In (i, j) (reps ov ids) -> In i ids.
Proof.
  induction ids as [|y r IH]; intros i j H; [destruct H|]. rewrite reps_cons in H. apply in_app_or in H. destruct H as [H|H]; [apply in_map_iff in H; destruct H as (z & E & _); injection E as <- <-; left; reflexivity|right; eapply IH; exact H].
Qed.
Lemma reps_nodup ov ids : NoDup ids -> NoDup (reps ov ids).
Proof.
  induction 1 as [|x r Hx Hr IH]; [constructor|]. rewrite reps_cons. apply TileProofs.NoDup_app'; [apply FinFun.Injective_map_NoDup; [intros a c E; congruence|apply NoDup_filter; constructor; assumption]|exact IH|].
  intros [i j] H H'. apply in_map_iff in H. destruct H as (y & E & _). injection E as <- <-. apply reps_in in H'. contradiction.
Qed.
Lemma pairs_exact dim prs (ids : list nat) : Permutation ids (seq 0 (length prs)) -> Forall (nonempty dim) prs ->
  exact_pairs dim prs (pairs (fun i j => overlaps dim (nth j prs ([], [])) (nth i prs ([], []))) ids).
Proof.
  intros P F. assert (ND : NoDup ids) by (eapply Permutation_NoDup; [symmetry; exact P|apply seq_NoDup]). rewrite Forall_forall in F.
  assert (NE : forall i, In i ids -> nth_error prs i = Some (nth i prs ([], [])) /\ nonempty dim (nth i prs ([], []))).
  { intros i Hi. apply (Permutation_in _ P), in_seq in Hi. split; [apply nth_error_nth'; tauto|apply F, nth_In; tauto]. }
  split; [apply pairs_nodup; exact ND|]. split.
  - intros i j H. split; [intros ->; exact (pairs_irr _ _ ND _ H)|]. apply pairs_in in H. destruct H as (A & B & C). destruct (NE i A) as [A1 A2]. destruct (NE j B) as [B1 B2]. exists (nth i prs ([], [])), (nth j prs ([], [])). split; [exact A1|]. split; [exact B1|].
    rewrite overlaps_sym in C. apply overlaps_meet in C; assumption.
  - intros i j a c N Ea Ec M. assert (IN : forall i a, nth_error prs i = Some a -> In i ids) by (intros i' a' E; apply (Permutation_in _ (Permutation_sym P)); apply (proj2 (in_seq _ _ _)); split; [apply Nat.le_0_l|exact (nth_error_some_lt _ _ _ E)]).
    pose proof (IN _ _ Ea) as Ia. pose proof (IN _ _ Ec) as Ic. destruct (NE i Ia) as [A1 A2]. destruct (NE j Ic) as [B1 B2]. assert (a = nth i prs ([], [])) by congruence. assert (c = nth j prs ([], [])) by congruence. subst a c. apply overlaps_meet in M; [|assumption|assumption].
    apply pairs_once; auto. rewrite overlaps_sym. exact M.
Qed.
(** full claim: over all leaves each unordered pair of distinct overlapping primitives is reported exactly once and no primitive is paired with
    itself.  For more than two primitives the second half fails (C35_pairs_itself_refuted): the traversal starts at the leaf itself.
    Apart from these pairs the claim holds. *)
Theorem C35_self_pairs_once_partial dim prs ids b : ready dim prs ids b -> (2 < length prs)%nat -> Forall (nonempty dim) prs ->
  exists outs : nat -> list nat,
    (forall k, (k < length prs)%nat -> self_iter dim b (fun _ => false) (Z.of_nat k) = Some (map Z.of_nat (outs k)) /\
       (y <-? linds b (Z.of_nat k) ;; aux b y) = Some (nth k ids 0)) /\
    exact_pairs dim prs (distinct (reported (map Z.to_nat ids) outs)) /\ NoDup (reported (map Z.to_nat ids) outs).
Proof.
  intros R Hn F. destruct (ready_facts _ _ _ _ R) as [P _]. pose proof (nat_ids _ _ P) as PN. set (ov := fun i j => overlaps dim (nth j prs ([], [])) (nth i prs ([], []))). set (I := map Z.to_nat ids) in *.
  assert (ND : NoDup I) by (eapply Permutation_NoDup; [symmetry; exact PN|apply seq_NoDup]). exists (fun k => filter (ov (nth k I 0%nat)) (skipn k I)). split; [|split].
  - intros k Hk. destruct (self_ok dim prs ids b k (fun _ => false) R Hn Hk) as (q & Eq & E & El). rewrite E, El, until_never. split; [|f_equal; symmetry; apply nth_error_nth; exact Eq].
    f_equal. unfold I. rewrite (of_to _ _ P) at 1. rewrite skipn_map, filter_map. f_equal. apply filter_ext_in. intros j _. unfold ov, pb. rewrite Nat2Z.id. replace (nth k (map Z.to_nat ids) 0%nat) with (Z.to_nat q); [reflexivity|]. symmetry. apply nth_error_nth. apply map_nth_error. exact Eq.
  - change (exact_pairs dim prs (distinct (reps ov I))). rewrite reps_pairs by exact ND. apply pairs_exact; assumption.
  - apply (reps_nodup ov I ND).
Qed.
Print Assumptions C35_self_pairs_once_partial.
(** the query from a leaf always reports that leaf's own primitive first *)
Theorem C35_pairs_itself_refuted dim prs ids b k : ready dim prs ids b -> (2 < length prs)%nat -> Forall (nonempty dim) prs -> (k < length prs)%nat ->
  exists own rest, self_iter dim b (fun _ => false) (Z.of_nat k) = Some (own :: rest) /\ (y <-? linds b (Z.of_nat k) ;; aux b y) = Some own.
Proof.
  intros R Hn F Hk. destruct (self_ok dim prs ids b k (fun _ => false) R Hn Hk) as (q & Eq & E & El). rewrite E, El, until_never. exists q.
  assert (SK : skipn k ids = q :: skipn (S k) ids) by (clear -Eq; revert k Eq; induction ids as [|x l IH]; intros [|k] Eq; try discriminate; [injection Eq as ->; reflexivity|apply IH; exact Eq]).
  destruct (ready_facts _ _ _ _ R) as [P _]. assert (N : nonempty dim (pb prs q)) by (eapply ne_pb; [exact P|exact F|eapply nth_error_In; exact Eq]).
  assert (O : overlaps dim (pb prs q) (pb prs q) = true).
  { unfold overlaps. apply forallb_forall. intros d Hd. apply in_seq in Hd. specialize (N d ltac:(lia)). unfold bmin, bmax. lia. }
  rewrite SK. cbn [filter]. rewrite O. eexists. split; reflexivity.
Qed.
Print Assumptions C35_pairs_itself_refuted.
Lemma seq_add a m : forall c, map (fun i => a + i)%nat (seq c m) = seq (a + c) m.
Proof. induction m as [|m IH]; intro c; [reflexivity|]. cbn [seq map]. f_equal. rewrite IH. f_equal. lia. Qed.
(** with at most two primitives the full claim holds *)
Theorem C35_self_pairs_small dim prs ids b : ready dim prs ids b -> (length prs <= 2)%nat -> Forall (nonempty dim) prs ->
  exists outs : nat -> list nat,
    (forall k, (k < length prs)%nat -> self_iter dim b (fun _ => false) (Z.of_nat k) = Some (map Z.of_nat (outs k))) /\
    exact_pairs dim prs (reported (seq 0 (length prs)) outs).
Proof.
  intros R Hn F. destruct (ready_facts _ _ _ _ R) as [P [[(_ & HN & Hb) _]|(t & _ & _ & _ & _ & H)]]; [|lia]. set (ov := fun i j => overlaps dim (nth j prs ([], [])) (nth i prs ([], []))).
  exists (fun k => filter (ov k) (seq (S k) (length prs - S k))). split.
  - intros k Hk. unfold self_iter. rewrite HN. replace (Z.of_nat (length prs) <=? 2) with true by lia. rewrite Hb, (nth_error_nth' prs ([], []) Hk). cbn [obind].
    replace (Z.of_nat k + 1) with (Z.of_nat (S k)) by lia. rewrite (linear_ok b prs _ _ Hb _ (S k)) by lia. rewrite until_never. f_equal. unfold zr.
    replace (Z.to_nat (Z.of_nat (length prs) - Z.of_nat (S k))) with (length prs - S k)%nat by lia. replace (map (fun i => Z.of_nat (S k) + Z.of_nat i) (seq 0 (length prs - S k))) with (map Z.of_nat (seq (S k) (length prs - S k))).
    + rewrite filter_map. f_equal. apply filter_ext. intro j. unfold ov, pb. rewrite Nat2Z.id. reflexivity.
    + rewrite <- (Nat.add_0_r (S k)), <- seq_add, map_map. rewrite Nat.add_0_r. apply map_ext. intro; lia.
  - assert (E : reported (seq 0 (length prs)) (fun k => filter (ov k) (seq (S k) (length prs - S k))) = pairs ov (seq 0 (length prs))).
    { unfold reported. rewrite seq_length. assert (G : forall m a, flat_map (fun k => map (pair (nth k (seq 0 (a + m)) 0%nat)) (filter (ov k) (seq (S k) (a + m - S k)))) (seq a m) = pairs ov (seq a m)).
      { induction m as [|m IH]; intro a; [reflexivity|]. cbn [seq flat_map pairs]. f_equal; [rewrite seq_nth by lia; replace (a + S m - S a)%nat with m by lia; reflexivity|]. rewrite <- (IH (S a)). replace (S a + m)%nat with (a + S m)%nat by lia. reflexivity. }
      apply (G (length prs) 0%nat). }
    rewrite E. apply pairs_exact; [reflexivity|exact F].
Qed.
Print Assumptions C35_self_pairs_small.

(** ** cases meeting the hypotheses *)
(** whatever the boxes, three or more primitives with any sorted codes can be built and refitted *)
Lemma ready_exists dim prs mcs inds : (2 < length prs)%nat -> length mcs = length prs -> Permutation inds (zr 0 (Z.of_nat (length prs))) -> Sorted Z.le mcs -> (forall c, In c mcs -> 0 <= c < 2 ^ 32) -> exists b, ready dim prs inds b.
Proof.
  intros Hn Hm P Hs Hc. assert (HL : length inds = length mcs) by (rewrite (Permutation_length P), zr_length; lia).
  destruct (C33_build_lays_out_tree_in_preorder mcs inds (zr 0 (n mcs)) (zr 0 (n mcs - 1)) (zr 0 (n mcs)) (zr 0 (n mcs)) (zr 0 (n mcs - 1))) as (m & t & E & _); auto; try lia.
  assert (B : built (length prs) inds m) by (exists mcs; do 5 eexists; repeat split; try eassumption; try reflexivity; try (apply Hc; assumption); lia).
  destruct (built_stores _ _ _ (fun _ => None) B) as (t' & S1 & Ep & _ & HL'). pose proof (stores_laid _ _ S1) as L. destruct S1 as (S0 & _ & S2).
  assert (Hp : forall p, In p (prims t') -> (Z.to_nat p < length prs)%nat) by (rewrite Ep; apply perm_in; exact P).
  set (rounds := repeat (zr 0 (Z.of_nat (length prs))) (16 * length prs)). assert (HR : fair (length prs) rounds) by (apply Forall_forall; intros r Hr; apply repeat_spec in Hr; subst r; intros i Hi; apply zr_in; exact Hi).
  assert (LR : Z.of_nat (length rounds) = 16 * Z.of_nat (length prs)) by (unfold rounds; rewrite repeat_length; lia). pose proof (leaves_size t') as ES. rewrite Ep, HL' in ES.
  destruct (refit_boxed dim prs (of_build m (length prs) (fun _ => None)) t' L S2 S0 Hp rounds HR ltac:(lia)) as (s & Er & _).
  eexists. eapply ready_big; [exact B|exact HR|lia|]. unfold refit. cbn [nleaves of_build]. rewrite Z.eqb_refl. cbn [negb]. replace (Z.of_nat (length prs) <=? 2) with false by lia. fold (of_build m (length prs) (fun _ => None)). rewrite Er. cbn [obind]. reflexivity.
Qed.
(** five boxes in the plane, the tree over them with two equal codes; one query stopping early; the self query from the first leaf *)
Definition ex_prs : list box := [([0;0],[2;2]); ([1;1],[3;3]); ([5;5],[6;6]); ([2;0],[4;1]); ([9;9],[9;9])].
Definition ex_t : tree := Node (Node (Leaf 3) (Node (Leaf 0) (Leaf 1))) (Node (Leaf 2) (Leaf 4)).
Definition ex_m := match build [3;6;6;20;30] [3;0;1;2;4] (zr 0 5) (zr 0 4) (zr 0 5) (zr 0 5) (zr 0 4) empty with Some (_, m) => m | None => empty end.
Definition ex_b := refit 2 ex_prs (of_build ex_m 5 (fun _ => None)) (concat (repeat [4;1;0;3;2] 72)).
Example ex36 : match ex_b with Some b => map (bvs b) (zr 0 9) = map Some [([0;0],[9;9]); ([0;0],[4;3]); ([2;0],[4;1]); ([0;0],[3;3]); ([0;0],[2;2]); ([1;1],[3;3]); ([5;5],[9;9]); ([5;5],[6;6]); ([9;9],[9;9])] | None => False end.
Proof. vm_compute. reflexivity. Qed.
Example ex34 : match ex_b with Some b => iter_neighbors b (fun c => overlaps 2 c ([2;1],[5;7])) (fun _ => false) = Some [3;0;1;2] /\ iter_neighbors b (fun c => overlaps 2 c ([2;1],[5;7])) (fun p => p =? 0) = Some [3;0] /\
  find_nearest_point b 2 [6;4] 1000 (-1) = Some (2, 2) /\ self_iter 2 b (fun _ => false) 0 = Some [3;0;1] | None => False end.
Proof. vm_compute. repeat split. Qed.
Example ex34_hyp : Forall (nonempty 2) ex_prs /\ exists b, ready 2 ex_prs [3;0;1;2;4] b.
Proof.
  split; [repeat constructor; intros [|[|d]] Hd; cbn; lia|]. apply (ready_exists 2 ex_prs [3;6;6;20;30]); [cbn; lia|reflexivity| |repeat constructor; lia|cbn; intros c H; lia].
  change (zr 0 (Z.of_nat (length ex_prs))) with [0;1;2;3;4]. change [3;0;1;2;4] with ([] ++ 3 :: [0;1;2;4]). apply Permutation_sym. change [0;1;2;3;4] with ([0;1;2] ++ 3 :: [4]). apply Permutation_sym, Permutation_elt. reflexivity.
Qed.
