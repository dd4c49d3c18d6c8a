From Verif Require Import Prelude SortModel RadixModel CountModel CountProofs SpmModel SpmSpec SpmProofs SpmBuildModel SpmBuildProofs.

Section T.
Context {V : Type}.
Notation csr := (@csr V).
Variable tr : V -> V.
Implicit Types m o b : csr.

Lemma cells_visits o : cells o = map (fun w => (coord o (fst w) (nth (snd w) (inds o) 0), snd w)) (visits o).
Proof.
  unfold cells, visits. induction (seq 0 (outer o)) as [|i l IH]; cbn [flat_map map]; [reflexivity|]. rewrite map_app, IH. f_equal. rewrite map_map. reflexivity.
Qed.
Lemma in_visits o w : wf_topo o -> In w (visits o) -> fst w < outer o /\ snd w < length (inds o).
Proof.
  intros W Hw. unfold visits in Hw. apply in_flat_map in Hw as (i & Hi & Hw). apply in_seq in Hi. apply in_map_iff in Hw as (k & <- & Hk). apply in_seq in Hk. cbn. split; [lia|]. pose proof (ptrs_le o (S i) W ltac:(lia)). lia.
Qed.
Lemma visits_length o : wf_topo o -> length (visits o) = length (inds o).
Proof.
  intros W. pose proof W as (L & P0 & M & E & I). rewrite <- E. unfold visits.
  assert (G : forall n, n <= outer o -> length (flat_map (fun i => map (fun k => (i, k)) (seq (nth i (ptrs o) 0) (nth (S i) (ptrs o) 0 - nth i (ptrs o) 0))) (seq 0 n)) = nth n (ptrs o) 0).
  { induction n as [|n IH]; intro H; [cbn; lia|]. replace (S n) with (n + 1) at 1 by lia. rewrite seq_app, flat_map_app, app_length, IH by lia. cbn [seq flat_map Nat.add]. rewrite app_nil_r, map_length, seq_length. specialize (M n ltac:(lia)). lia. }
  apply G. lia.
Qed.
Lemma fold_none {W} (f : list V -> W -> option (list V)) l : fold_left (fun acc w => bind acc (fun a => f a w)) l None = None.
Proof. induction l; cbn; auto. Qed.
Lemma value_stores (vs : list V) d : forall sv a, (forall w : nat * (nat * nat), In w sv -> snd (snd w) < length vs) ->
  fold_left (fun acc w => bind acc (fun a => bind (nth_error vs (snd (snd w))) (fun x => upd a (fst w) (tr x)))) sv (Some a)
  = run_stores a (map (fun w => (fst w, tr (nth (snd (snd w)) vs d))) sv).
Proof.
  unfold run_stores. induction sv as [|w sv IH]; intros a H; cbn [fold_left map]; [reflexivity|]. cbn [bind store fst snd]. rewrite (nth_error_nth' vs d) by (apply H; left; reflexivity). cbn [bind].
  destruct (upd a (fst w) (tr (nth (snd (snd w)) vs d))) as [a'|].
  - apply IH. intros w' Hw'. apply H. right. exact Hw'.
  - clear. induction sv as [|w' sv IH]; cbn; [reflexivity|exact IH].
Qed.
Definition swap_entry (e : nat * nat * option V) : nat * nat * option V := (swap (fst e), option_map tr (snd e)).

Lemma transpose_ok b o r : wf o -> rm b = rm o -> nrows b = ncols o -> ncols b = nrows o -> transpose_run tr b o r ->
  exists m, r = Some m /\ rm m = rm o /\ nrows m = ncols o /\ ncols m = nrows o /\ wf_topo m /\ (0 < length (inds o) -> wf m) /\ Permutation (entries m) (map swap_entry (entries o)).
Proof.
  intros [W Lv] Rb Nb Cb (ord & P & R). set (seg := fun w : nat * nat => nth (snd w) (inds o) 0) in *.
  assert (Hv : forall w, In w ord -> fst w < outer o /\ snd w < length (inds o)) by (intros w Hw; apply in_visits; [exact W|exact (Permutation_in w P Hw)]).
  assert (Hs : forall w, In w ord -> seg w < inner o) by (intros w Hw; apply W; apply Hv; exact Hw).
  assert (Lord : length ord = length (inds o)) by (rewrite (Permutation_length P); apply visits_length; exact W).
  destruct (layout_ok seg (inner o) ord Hs) as (ps & ws & E & Lp & Np & Ms & Ag & Cv & LB & Tot). rewrite E in R. destruct R as (ai & av & si & sv & Lai & Lav & Psi & Psv & ->).
  pose proof (bins_perm seg (inner o) ord Hs) as PB. set (B := bins seg (inner o) ord) in *.
  rewrite (stores_map (fun w => fst w) B ws si ai) by (try exact Ag; try exact Psi; try lia; intros p Hp; apply Cv; lia). cbn [bind].
  rewrite skipn_all2 by lia. rewrite app_nil_r.
  assert (Out : forall vs : list V, outer {| rm := rm b; nrows := nrows b; ncols := ncols b; ptrs := ps; inds := map (fun w => fst w) B; vals := vs |} = inner o)
    by (intro vs; unfold outer, inner; cbn; rewrite Rb, Nb, Cb; destruct (rm o); reflexivity).
  assert (Inn : forall vs : list V, inner {| rm := rm b; nrows := nrows b; ncols := ncols b; ptrs := ps; inds := map (fun w => fst w) B; vals := vs |} = outer o)
    by (intro vs; unfold outer, inner; cbn; rewrite Rb, Nb, Cb; destruct (rm o); reflexivity).
  assert (WT : forall vs : list V, wf_topo {| rm := rm b; nrows := nrows b; ncols := ncols b; ptrs := ps; inds := map (fun w => fst w) B; vals := vs |}).
  { intro vs. apply (wf_of_bins seg _ (inner o) ord (fun w => fst w)); auto. intros w Hw. rewrite Inn. apply Hv. exact Hw. }
  assert (CE : forall vs : list V, cells {| rm := rm b; nrows := nrows b; ncols := ncols b; ptrs := ps; inds := map (fun w => fst w) B; vals := vs |} = combine (map (fun w => swap (coord o (fst w) (nth (snd w) (inds o) 0))) B) (seq 0 (length ord))).
  { intro vs. rewrite (cells_of_bins seg _ (inner o) ord (fun w => fst w)) by auto. f_equal. apply map_ext. intro w. unfold coord, seg, swap. cbn. rewrite Rb. destruct (rm o); reflexivity. }
  destruct (Nat.eq_dec (length (inds o)) 0) as [Z|NZ].
  - rewrite Lv, Z. cbn [Nat.eqb Nat.ltb Nat.leb andb]. eexists. split; [reflexivity|]. cbn [rm nrows ncols]. repeat (split; [assumption|]). split; [apply WT|]. split; [lia|].
    unfold entries at 1. rewrite CE, Lord, Z. rewrite combine_nil. cbn [map]. unfold entries. rewrite cells_visits. pose proof (visits_length o W) as Lz. rewrite Z in Lz. destruct (visits o); [reflexivity|discriminate].
  - rewrite Lv, Nat.eqb_refl. destruct (Nat.ltb_spec 0 (length (inds o))); [|lia]. cbn [andb].
    destruct (vals o) as [|d vs0] eqn:Ev; [cbn in Lv; lia|]. rewrite <- Ev in *.
    rewrite (value_stores (vals o) d).
    2: { intros w Hw. rewrite Lv. apply (Permutation_in _ Psv) in Hw. apply Hv. rewrite <- Ms. apply in_map. exact Hw. }
    rewrite (stores_map (fun w => tr (nth (snd w) (vals o) d)) B ws _ av).
    2: lia.
    2: exact Ag.
    2: { intros p Hp. apply Cv. lia. }
    2: { apply (Permutation_map (fun w => (fst w, tr (nth (snd (snd w)) (vals o) d)))). exact Psv. }
    cbn [bind]. rewrite skipn_all2 by lia. rewrite app_nil_r. eexists. split; [reflexivity|]. cbn [rm nrows ncols]. repeat (split; [assumption|]). split; [apply WT|].
    split; [intros _; split; [apply WT|cbn [vals inds]; rewrite !map_length; reflexivity]|].
    unfold entries at 1. rewrite CE. cbn [vals].
    assert (G : map (fun '(c, k) => (c, nth_error (map (fun w => tr (nth (snd w) (vals o) d)) B) k)) (combine (map (fun w => swap (coord o (fst w) (nth (snd w) (inds o) 0))) B) (seq 0 (length ord)))
      = map (fun w => (swap (coord o (fst w) (nth (snd w) (inds o) 0)), Some (tr (nth (snd w) (vals o) d)))) B).
    { rewrite <- LB. clear. assert (K : forall (A C D : Type) (f : A -> C) (g : A -> D) (l : list A) pre, map (fun '(c, k) => (c, nth_error (pre ++ map g l) k)) (combine (map f l) (seq (length pre) (length l))) = map (fun w => (f w, Some (g w))) l).
      { clear. intros A C D f g. induction l as [|w l IH]; intro pre; cbn [map length seq combine]; [reflexivity|]. f_equal.
        - f_equal. rewrite nth_error_app2, Nat.sub_diag by lia. reflexivity.
        - specialize (IH (pre ++ [g w])). rewrite app_length, Nat.add_1_r in IH. rewrite <- app_assoc in IH. exact IH. }
      exact (K _ _ _ (fun w => swap (coord o (fst w) (nth (snd w) (inds o) 0))) (fun w => tr (nth (snd w) (vals o) d)) B []). }
    refine (eq_ind_r (fun l => Permutation l _) _ G). unfold entries. rewrite cells_visits, !map_map.
    assert (H2 : map (fun w => swap_entry (coord o (fst w) (nth (snd w) (inds o) 0), nth_error (vals o) (snd w))) (visits o) = map (fun w => (swap (coord o (fst w) (nth (snd w) (inds o) 0)), Some (tr (nth (snd w) (vals o) d)))) (visits o)).
    { apply map_ext_in. intros w Hw. apply in_visits in Hw; [|exact W]. unfold swap_entry. cbn [fst snd]. rewrite (nth_error_nth' (vals o) d) by lia. reflexivity. }
    rewrite H2. apply Permutation_map. etransitivity; [symmetry; exact PB|exact P].
Qed.
Lemma transpose_total b o : wf o -> exists r, transpose_run tr b o r.
Proof.
  intros [W Lv]. destruct (layout_ok (fun w : nat * nat => nth (snd w) (inds o) 0) (inner o) (visits o)) as (ps & ws & E & _).
  { intros w Hw. apply W. apply (in_visits o w W Hw). }
  unfold transpose_run. eexists. exists (visits o). split; [reflexivity|]. rewrite E.
  exists (inds o), (vals o). do 2 eexists. split; [reflexivity|]. split; [exact Lv|]. split; [reflexivity|]. split; reflexivity.
Qed.
(** the shape is never assigned *)
Lemma transpose_shape b o m : transpose_run tr b o (Some m) -> nrows m = nrows b /\ ncols m = ncols b.
Proof.
  intros (ord & P & R). destruct (layout _ _ _) as [[ps ws]|]; [|discriminate]. destruct R as (ai & av & si & sv & _ & _ & _ & _ & E).
  destruct (run_stores ai si); [|discriminate]. cbn [bind] in E. destruct (_ && _); [|inversion E; auto]. destruct (fold_left _ sv (Some av)); inversion E; auto.
Qed.
(** opposite layout *)
Lemma transpose_copy_ok b o : wf o -> rm b = negb (rm o) -> 0 < length (inds o) ->
  let m := transpose_copy b o in wf m /\ nrows m = ncols o /\ ncols m = nrows o /\ entries m = map (fun e => (swap (fst e), snd e)) (entries o).
Proof.
  intros [W Lv] Rb H m. assert (Ev : vals m = vals o). { unfold m, transpose_copy. cbn [vals]. rewrite Lv, Nat.eqb_refl. destruct (Nat.ltb_spec 0 (length (inds o))); [reflexivity|lia]. }
  assert (Eo : outer m = outer o) by (unfold m, transpose_copy, outer; cbn; rewrite Rb; destruct (rm o); reflexivity).
  assert (Ei : inner m = inner o) by (unfold m, transpose_copy, inner; cbn; rewrite Rb; destruct (rm o); reflexivity).
  split; [|split; [reflexivity|split; [reflexivity|]]].
  - split; [|rewrite Ev; exact Lv]. destruct W as (A & B & C & D & F). unfold wf_topo. rewrite Eo, Ei. cbn [ptrs inds m transpose_copy]. auto.
  - unfold entries. rewrite Ev. unfold cells. rewrite Eo. cbn [ptrs inds m transpose_copy]. induction (seq 0 (outer o)) as [|i l IH]; cbn [flat_map map]; [reflexivity|]. rewrite !map_app, IH. f_equal. rewrite !map_map. apply map_ext. intro k.
    unfold coord, swap. cbn. rewrite Rb. destruct (rm o); reflexivity.
Qed.

(** *** the element access of the transposed matrix *)
Lemma in_entries m i j v : In (i, j, v) (entries m) <-> exists k, stored m i j k /\ v = nth_error (vals m) k.
Proof.
  unfold entries, stored. rewrite in_map_iff. split.
  - intros ([c k] & E & H). inversion E; subst. exists k. auto.
  - intros (k & H & ->). exists (i, j, k). auto.
Qed.
Lemma get_transposed zero o m : tr zero = zero -> wf o -> unique o -> wf_topo m -> (0 < length (inds o) -> wf m) -> nrows m = ncols o -> ncols m = nrows o ->
  Permutation (entries m) (map swap_entry (entries o)) -> forall i j, i < nrows o -> j < ncols o ->
  exists v, get zero o i j = Some v /\ get zero m j i = Some (tr v).
Proof.
  intros Tz Wo U Wm Wm' Nm Cm P i j Hi Hj. destruct (get_ok zero o i j Wo Hi Hj) as (v & E & H). exists v. split; [exact E|].
  destruct (Nat.eq_dec (length (inds o)) 0) as [Z|NZ].
  - assert (Lc : length (cells m) = 0). { pose proof (Permutation_length P) as L. unfold entries in L. rewrite !map_length in L. rewrite L, cells_visits, map_length, visits_length by apply Wo. exact Z. }
    assert (No : forall a c k, ~ stored m a c k). { intros a c k Hk. unfold stored in Hk. destruct (cells m); [destruct Hk|discriminate]. }
    assert (Vz : v = zero). { destruct H as [(k & Hk & _)|[_ H]]; [|exact H]. exfalso. unfold stored in Hk. rewrite cells_visits in Hk. pose proof (visits_length o (proj1 Wo)) as L. rewrite Z in L. destruct (visits o); [destruct Hk|discriminate]. }
    subst v. rewrite Tz. pose proof (oi_lt m j i ltac:(lia) ltac:(lia)) as Ho. pose proof (ptrs_le m (S (oi m j i)) Wm ltac:(lia)) as L. pose proof Wm as (_ & _ & M & _). specialize (M _ Ho).
    unfold get. rewrite bounds_ok by (auto; lia). cbn [bind]. destruct (scan_ok m (ii m j i) (nth (S (oi m j i)) (ptrs m) 0) L (length (inds m)) (nth (oi m j i) (ptrs m) 0)) as (r & Er & A & B & C); [lia|lia|]. rewrite Er. cbn [bind].
    destruct (Nat.eqb_spec r (nth (S (oi m j i)) (ptrs m) 0)) as [|Ne]; [reflexivity|]. exfalso. apply (No j i r). apply stored_at. split; [exact Ho|]. split; [lia|]. apply C. lia.
  - destruct (get_ok zero m j i (Wm' ltac:(lia))) as (v' & E' & H'); [lia|lia|]. rewrite E'. f_equal.
    assert (Back : forall k' v0, stored m j i k' -> nth_error (vals m) k' = Some v0 -> exists k v1, stored o i j k /\ nth_error (vals o) k = Some v1 /\ v0 = tr v1).
    { intros k' v0 Hk Hv. assert (I : In (j, i, Some v0) (entries m)) by (apply in_entries; eauto). apply (Permutation_in _ P) in I. apply in_map_iff in I as ([[a c] w] & Q & I). inversion Q; subst.
      apply in_entries in I as (k & Hs & ->). destruct (nth_error (vals o) k) as [v1|] eqn:Ek; [|discriminate]. inversion H3; subst. exists k, v1. auto. }
    destruct H as [(k & Hk & Hv)|[No ->]].
    + assert (I : In (j, i, Some (tr v)) (entries m)).
      { apply (Permutation_in _ (Permutation_sym P)). apply in_map_iff. exists (i, j, Some v). split; [reflexivity|]. apply in_entries. eauto. }
      apply in_entries in I as (k' & Hk' & Hv'). destruct H' as [(k2 & Hk2 & Hv2)|[No _]]; [|destruct (No k' Hk')].
      destruct (Back k2 v' Hk2 Hv2) as (k3 & v1 & A & B & ->). rewrite (U i j k3 k A Hk) in B. congruence.
    + destruct H' as [(k2 & Hk2 & Hv2)|[_ ->]]; [|symmetry; exact Tz]. destruct (Back k2 v' Hk2 Hv2) as (k3 & v1 & A & B & _). destruct (No k3 A).
Qed.
(** *** in place *)
Lemma self_none ps lo l : fold_left (self_step ps lo) l None = None.
Proof. induction l; cbn; auto. Qed.
Lemma self_bad o ps lo : length ps = S (inner o) -> 0 < length (inds o) -> exists a, length a = length (inds o) /\
  match transpose_self o ps lo a with None => True | Some m => ~ wf_topo m end.
Proof.
  intros Lp H. exists (repeat (length ps + inner o) (length (inds o))). split; [apply repeat_length|]. unfold transpose_self. destruct (outer o <? length ps); [|exact I].
  destruct (flat_map _ _) as [|w l].
  - cbn [fold_left bind]. intros (_ & _ & _ & _ & F). cbn [inds] in F. specialize (F 0). rewrite repeat_length in F. specialize (F H).
    match type of F with _ < inner ?x => change (inner x) with (inner o) in F end. destruct (length (inds o)); [lia|]. cbn [repeat nth] in F. lia.
  - cbn [fold_left]. unfold self_step at 2. cbn [bind]. destruct (nth_error (repeat (length ps + inner o) (length (inds o))) (snd w)) as [x|] eqn:Ex; [|rewrite self_none; exact I].
    apply nth_error_In, repeat_spec in Ex. subst x. cbn [bind]. rewrite (proj2 (nth_error_None ps _)) by lia. cbn [bind]. rewrite self_none. exact I.
Qed.
End T.
