(** C51: BvttFront::push_back and reorder. *)
From Coq Require Import Sorted.
From Verif Require Import Prelude SortModel CountModel CountProofs BvttModel.

(** the recorded entries, in storage order *)
Definition recorded (f : front) : list (nat * nat) := combine (firstn (cnt f) (prims f)) (firstn (cnt f) (nodes f)).

Lemma push_stores_ok ord : forall c capacity, c + length ord <= capacity -> push_stores c capacity ord = combine (seq c (length ord)) ord.
Proof.
  induction ord as [|p r IH]; intros c capacity H; cbn [push_stores length seq combine] in *; [reflexivity|]. destruct (Nat.ltb_spec c capacity); [|lia]. cbn [app]. f_equal. apply IH. lia.
Qed.
Lemma recorded_eq f l : cnt f <= cap f -> recorded f = l <-> l = map (fun i => (nth i (prims f) 0, nth i (nodes f) 0)) (seq 0 (cnt f)).
Proof.
  intros C. unfold cap in C. assert (E : recorded f = map (fun i => (nth i (prims f) 0, nth i (nodes f) 0)) (seq 0 (cnt f))).
  { unfold recorded. set (n := cnt f) in *. assert (G : forall (a b : list nat) n s, n <= length a -> n <= length b -> s = 0 -> combine (firstn n a) (firstn n b) = map (fun i => (nth i a 0, nth i b 0)) (seq s n)).
    { clear. induction a as [|x a IH]; intros b n s La Lb ->; [destruct n; [reflexivity|cbn in La; lia]|]. destruct b as [|y b]; [destruct n; [reflexivity|cbn in Lb; lia]|]. destruct n as [|n]; [reflexivity|].
      cbn [firstn combine seq map]. f_equal. rewrite (IH b n 0) by (cbn in *; lia). rewrite <- seq_shift, map_map. apply map_ext. intro; reflexivity. }
    apply G; lia. }
  rewrite E. split; congruence.
Qed.
Lemma push_ok f ps r : cnt f + length ps <= cap f -> push_run f ps r ->
  exists f' ps', r = Some f' /\ Permutation ps' ps /\ recorded f' = recorded f ++ ps' /\ cnt f' = cnt f + length ps /\ cap f' = cap f.
Proof.
  intros H (ord & wp & wn & P & Pp & Pn & ->). pose proof (Permutation_length P) as LP. unfold cap in *.
  rewrite push_stores_ok in Pp, Pn by lia.
  assert (Sp : forall (A : Type) (g : nat * nat -> A) c l, map (fun w : nat * (nat * nat) => (fst w, g (snd w))) (combine (seq c (length l)) l) = combine (seq c (length (map g l))) (map g l)).
  { clear. intros A g c l. rewrite map_length. revert c. induction l as [|x l IH]; intro c; cbn; [reflexivity|]. f_equal. apply IH. }
  rewrite Sp in Pp, Pn.
  rewrite (run_block (map fst ord) (prims f) (cnt f) wp); [|rewrite map_length; lia|exact Pp]. cbn [bind].
  rewrite (run_block (map snd ord) (nodes f) (cnt f) wn); [|rewrite map_length; lia|exact Pn]. cbn [bind].
  eexists. exists ord. split; [reflexivity|]. split; [exact P|].
  split; [|split; [reflexivity|cbn [prims nodes]; rewrite !app_length, !firstn_length, !map_length, !skipn_length; lia]].
  unfold recorded. cbn [prims nodes cnt]. rewrite <- LP.
  assert (G : forall (A : Type) (a : list A) b z c n, c <= length a -> n = length b -> firstn (c + n) (firstn c a ++ b ++ z) = firstn c a ++ b).
  { clear. intros A a b z c n Hc ->. rewrite app_assoc. rewrite firstn_app, app_length, firstn_length, Nat.min_l by exact Hc. rewrite Nat.sub_diag, firstn_O, app_nil_r. apply firstn_all2. rewrite app_length, firstn_length. lia. }
  rewrite !G by (rewrite ?map_length; lia).
  assert (CA : forall (A B : Type) (a a' : list A) (b b' : list B), length a = length b -> combine (a ++ a') (b ++ b') = combine a b ++ combine a' b').
  { clear. induction a as [|x a IH]; intros a' [|y b] b' L; cbn in *; try discriminate; [reflexivity|]. f_equal. apply IH. lia. }
  rewrite CA by (rewrite !firstn_length; lia). f_equal. clear. induction ord as [|[x y] l IH]; cbn; [reflexivity|]. f_equal. exact IH.
Qed.

Lemma reorder_ok maxid nn f : cnt f <= cap f -> Forall (fun e => snd e < nn) (recorded f) ->
  (exists r, reorder_run maxid nn f r) /\
  forall r, reorder_run maxid nn f r ->
    exists f', r = Some f' /\ Permutation (recorded f') (recorded f) /\ StronglySorted (fun a b => snd a <= snd b) (recorded f') /\ cnt f' = cnt f.
Proof.
  intros C Hn. pose proof C as C'. unfold cap in C'.
  assert (EI : items maxid f = recorded f).
  { symmetry. apply recorded_eq; [exact C|]. unfold items. apply map_ext_in. intros i Hi. apply in_seq in Hi. unfold prim_at, node_at. destruct (Nat.ltb_spec i (cap f)); [reflexivity|lia]. }
  assert (LI : length (recorded f) = cnt f) by (unfold recorded; rewrite combine_length, !firstn_length; lia).
  assert (Key : forall o1 o2, Permutation o1 (recorded f) -> Permutation o2 (recorded f) ->
    exists ws, bind (tickets snd (repeat 0 nn) o1) (fun '(cs, _) => bind (tickets snd (repeat 0 nn) o2) (fun '(_, ts) => targets snd (escan 0 cs) ts)) = Some ws /\
      (forall p e, In (p, e) ws -> nth_error (bins snd nn o2) p = Some e) /\ (forall p, p < length o2 -> In p (map fst ws)) /\ length (bins snd nn o2) = length o2).
  { intros o1 o2 P1 P2.
    assert (D1 : forall x, In x o1 -> snd x < nn) by (intros x Hx; rewrite Forall_forall in Hn; exact (Hn x (Permutation_in x P1 Hx))).
    assert (D2 : forall x, In x o2 -> snd x < nn) by (intros x Hx; rewrite Forall_forall in Hn; exact (Hn x (Permutation_in x P2 Hx))).
    destruct (count_sort_ok snd nn o1 D1) as (cs1 & ts1 & ws1 & E1 & L1 & N1 & _). destruct (count_sort_ok snd nn o2 D2) as (cs2 & ts2 & ws2 & E2 & L2 & N2 & _ & T2 & _ & A2 & B2).
    assert (cs1 = cs2) as ->.
    { apply nth_error_ext. intro d. destruct (Nat.lt_ge_cases d nn) as [Ld|Ld].
      - rewrite N1, N2 by exact Ld. f_equal. unfold CountProofs.cnt. apply Permutation_length. assert (P12 : Permutation o1 o2) by (etransitivity; [exact P1|symmetry; exact P2]). clear - P12.
        induction P12; cbn; [constructor| | |etransitivity; eauto].
        + destruct (snd x =? d); [constructor|]; assumption.
        + destruct (snd x =? d), (snd y =? d); try reflexivity. apply perm_swap.
      - rewrite !(proj2 (nth_error_None _ _)) by lia. reflexivity. }
    rewrite E1. cbn [bind]. rewrite E2. cbn [bind]. exists ws2. split; [exact T2|]. split; [exact A2|]. split; [exact B2|]. symmetry. apply Permutation_length. apply bins_perm. exact D2. }
  split.
  - unfold reorder_run. destruct (Key (recorded f) (recorded f)) as (ws & E & _); [reflexivity|reflexivity|]. eexists. exists (recorded f), (recorded f). rewrite EI. split; [reflexivity|]. split; [reflexivity|]. rewrite E.
    eexists. eexists. split; [reflexivity|]. split; reflexivity.
  - intros r (o1 & o2 & P1 & P2 & R). rewrite EI in P1, P2. destruct (Key o1 o2 P1 P2) as (ws & E & A & B & L). rewrite E in R. destruct R as (wp & wn & Pp & Pn & ->).
    pose proof (Permutation_length P2) as L2.
    rewrite (stores_map fst (bins snd nn o2) ws wp (prims f)); [|lia|exact A|rewrite L; exact B|exact Pp]. cbn [bind].
    rewrite (stores_map snd (bins snd nn o2) ws wn (nodes f)); [|lia|exact A|rewrite L; exact B|exact Pn]. cbn [bind].
    eexists. split; [reflexivity|].
    assert (ER : recorded {| prims := map fst (bins snd nn o2) ++ skipn (length (bins snd nn o2)) (prims f); nodes := map snd (bins snd nn o2) ++ skipn (length (bins snd nn o2)) (nodes f); cnt := cnt f |} = bins snd nn o2).
    { unfold recorded. cbn [prims nodes cnt]. rewrite !firstn_app, !map_length. replace (cnt f - length (bins snd nn o2)) with 0 by lia. rewrite !firstn_O, !app_nil_r.
      rewrite !firstn_all2 by (rewrite map_length; lia). clear. induction (bins snd nn o2) as [|[x y] l IH]; cbn; [reflexivity|]. f_equal. exact IH. }
    rewrite ER. split; [|split; [|reflexivity]].
    + etransitivity; [|exact P2]. symmetry. apply bins_perm. intros x Hx. rewrite Forall_forall in Hn. exact (Hn x (Permutation_in x P2 Hx)).
    + clear. unfold bins. generalize 0 at 1. intro s0. revert s0. induction nn as [|n IH]; intro s0; cbn [seq flat_map]; [constructor|].
      apply SortProofs.ss_app_iff. split; [|split; [apply IH|]].
      * assert (G : forall l, Forall (fun e : nat * nat => snd e = s0) l -> StronglySorted (fun a b => snd a <= snd b) l).
        { clear. induction 1 as [|x l Hx F IH]; constructor; [exact IH|]. eapply Forall_impl; [|exact F]. cbn. intros; lia. }
        apply G. apply Forall_forall. intros x Hx. apply filter_In in Hx. destruct Hx as [_ Hx]. apply Nat.eqb_eq in Hx. exact Hx.
      * intros x y Hx Hy. apply filter_In in Hx. destruct Hx as [_ Hx]. apply Nat.eqb_eq in Hx. apply in_flat_map in Hy. destruct Hy as (d & Hd & Hy). apply filter_In in Hy. destruct Hy as [_ Hy]. apply Nat.eqb_eq in Hy. apply in_seq in Hd. lia.
Qed.

(** Concurrent push_back calls that fit into the capacity append exactly the pushed pairs, each once, in some order. *)
Theorem C51_push_back_records_each_pair_once : forall f ps r, cnt f + length ps <= cap f -> push_run f ps r ->
  exists f' ps', r = Some f' /\ Permutation ps' ps /\ recorded f' = recorded f ++ ps' /\ cnt f' = cnt f + length ps /\ cap f' = cap f.
Proof. exact push_ok. Qed.
(** reorder always succeeds on a front within capacity whose nodes are nodes of the hierarchy, keeps exactly the recorded pairs and sorts
    them by node. *)
Theorem C51_reorder_groups_by_node : forall maxid nn f, cnt f <= cap f -> Forall (fun e => snd e < nn) (recorded f) ->
  (exists r, reorder_run maxid nn f r) /\
  forall r, reorder_run maxid nn f r ->
    exists f', r = Some f' /\ Permutation (recorded f') (recorded f) /\ StronglySorted (fun a b => snd a <= snd b) (recorded f') /\ cnt f' = cnt f.
Proof. exact reorder_ok. Qed.
(** Finding: the counter counts the calls that did not fit as well, so after an overflow size() exceeds the capacity and reorder indexes
    the counters with ~0. *)
Theorem C51_reorder_after_overflow_refuted : forall maxid nn, 5 < nn <= maxid -> exists f f',
  cnt f = 0 /\ cap f = 1 /\ push_run f [(10, 5); (11, 4)] (Some f') /\ cnt f' = 2 /\ forall r, reorder_run maxid nn f' r -> r = None.
Proof.
  intros maxid nn H. exists {| prims := [0]; nodes := [0]; cnt := 0 |}, {| prims := [10]; nodes := [5]; cnt := 2 |}.
  split; [reflexivity|]. split; [reflexivity|]. split.
  { exists [(10, 5); (11, 4)], [(0, 10)], [(0, 5)]. repeat split; reflexivity. }
  split; [reflexivity|]. intros r (o1 & o2 & P1 & _ & R).
  replace (bind (tickets snd (repeat 0 nn) o1) _) with (@None (list (nat * (nat * nat)))) in R; [exact R|].
  assert (G : forall (ord : list (nat * nat)) cs, length cs = nn -> In (maxid, maxid) ord -> tickets snd cs ord = None).
  { clear - H. induction ord as [|x l IH]; intros cs L [].
    - subst x. cbn. rewrite (proj2 (nth_error_None _ _)) by lia. reflexivity.
    - cbn. destruct (nth_error cs (snd x)) as [c|] eqn:E; [|reflexivity]. cbn. destruct (upd cs (snd x) (S c)) as [cs'|] eqn:U; [|reflexivity]. cbn.
      rewrite IH; [reflexivity| |assumption]. rewrite (upd_length _ _ _ _ U). exact L. }
  rewrite G; [reflexivity|apply repeat_length|]. eapply Permutation_in; [symmetry; exact P1|]. right. left. reflexivity.
Qed.

(** a concrete front: two recorded entries, three pushes, then a reorder *)
Definition f0 : front := {| prims := [7; 8; 0; 0; 0; 0]; nodes := [2; 0; 0; 0; 0; 0]; cnt := 2 |}.
Definition f1 : front := {| prims := [7; 8; 2; 1; 3; 0]; nodes := [2; 0; 2; 1; 0; 0]; cnt := 5 |}.
Example C51_case : cnt f0 + 3 <= cap f0 /\ push_run f0 [(1, 1); (2, 2); (3, 0)] (Some f1) /\ cnt f1 <= cap f1 /\ Forall (fun e => snd e < 3) (recorded f1) /\
  recorded f1 = [(7, 2); (8, 0); (2, 2); (1, 1); (3, 0)].
Proof.
  split; [cbn; lia|]. split.
  - exists [(2, 2); (1, 1); (3, 0)], [(4, 3); (2, 2); (3, 1)], [(2, 2); (3, 1); (4, 0)]. split; [apply perm_swap|]. cbn. split; [|split; reflexivity].
    apply (Permutation_cons_append [(2, 2); (3, 1)] (4, 3)).
  - split; [cbn; lia|]. split; [repeat constructor|reflexivity].
Qed.
Print Assumptions C51_push_back_records_each_pair_once.
Print Assumptions C51_reorder_groups_by_node.
Print Assumptions C51_reorder_after_overflow_refuted.
