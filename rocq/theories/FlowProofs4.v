(** The table of edges finds the position of every entry. *)
From Verif Require Import Prelude SortModel CountModel CountProofs BhtModel BhtSpec BhtProps FlowModel FlowSpec FlowProofs2.
From Verif Require ShProofs TileProofs.

Lemma same_length {A} (l r : list A) : NoDup l -> NoDup r -> (forall x, In x l <-> In x r) -> length l = length r.
Proof. intros N1 N2 H. apply Nat.le_antisymm; apply NoDup_incl_length; auto; intros x I; apply H; auto. Qed.
Lemma filter_full {A} (f : A -> bool) l : length (filter f l) = length l -> forall x, In x l -> f x = true.
Proof.
  induction l as [|a l IH]; intros E x I; [destruct I|]. assert (L : length (filter f l) <= length l) by (clear; induction l as [|b l IH]; cbn; [lia|]; destruct (f b); cbn; lia).
  cbn in E. destruct (f a) eqn:Fa; cbn in E; [|lia]. destruct I as [<-|I]; auto.
Qed.
Section T.
Variable m : csr.
Notation n := (verts m).
Notation entry := (entry (ptrs m) (cols m)).
Hypothesis Hptrs : length (ptrs m) = S n.
Hypothesis Hptr : forall u a, nth_error (ptrs m) u = Some a -> (a <= length (cols m)).
Hypothesis Huniq : forall u v j j', entry u v j -> entry u v j' -> j = j'.
Hypothesis Hrows : rows_apart (ptrs m) (cols m).

Lemma entry_u u v j : entry u v j -> u < n /\ j < nnz m.
Proof. intros (a & e & Ea & Ee & L & E). apply nth_error_some_lt in Ee. apply nth_error_some_lt in E. unfold nnz. lia. Qed.
Lemma in_row u j : u < n -> In j (row m u) <-> exists v, entry u v j.
Proof.
  intro L. unfold row. rewrite in_seq. assert (Ea : nth_error (ptrs m) u = Some (nth u (ptrs m) 0)) by (apply nth_lt_some; lia). assert (Ee : nth_error (ptrs m) (S u) = Some (nth (S u) (ptrs m) 0)) by (apply nth_lt_some; lia).
  split.
  - intros I. pose proof (Hptr _ _ Ee). exists (nth j (cols m) 0), (nth u (ptrs m) 0), (nth (S u) (ptrs m) 0). split; [auto|]. split; [auto|]. split; [lia|]. apply nth_lt_some. lia.
  - intros (v & a & e & Ea' & Ee' & I & _). assert (a = nth u (ptrs m) 0) by congruence. assert (e = nth (S u) (ptrs m) 0) by congruence. lia.
Qed.
Lemma in_edges u v j : In (u, v, j) (edges m) <-> entry u v j.
Proof.
  unfold edges. rewrite in_flat_map. split.
  - intros (u' & Iu & I). apply in_seq in Iu. apply in_map_iff in I as (j' & E & Ij). inversion E; subst. apply in_row in Ij as (v' & En); [|lia]. assert (nth j (cols m) 0 = v') by (destruct En as (a & e & _ & _ & _ & C); apply nth_some; auto). subst. exact En.
  - intros En. pose proof (entry_u _ _ _ En) as (Lu & _). exists u. split; [apply in_seq; lia|]. apply in_map_iff. exists j. split; [|apply in_row; eauto]. destruct En as (a & e & _ & _ & _ & C). rewrite (nth_some _ _ _ 0 C). reflexivity.
Qed.
Lemma edges_nodup : NoDup (edges m).
Proof.
  unfold edges. apply TileProofs.NoDup_flat_map.
  - apply seq_NoDup.
  - intros u Iu. apply ShProofs.NoDup_map_on; [apply seq_NoDup|]. intros a b _ _ E. congruence.
  - intros x y z _ _ Ix Iy. apply in_map_iff in Ix as (a & <- & _). apply in_map_iff in Iy as (b & E & _). congruence.
Qed.
Lemma edges_keys : NoDup (map fst (edges m)).
Proof. apply ShProofs.NoDup_map_on; [apply edges_nodup|]. intros [[u v] j] [[u' v'] j'] I I' E. cbn in E. inversion E; subst. apply in_edges in I. apply in_edges in I'. rewrite (Huniq _ _ _ _ I I'). reflexivity. Qed.
Lemma edges_count : length (edges m) <= nnz m.
Proof.
  rewrite <- (map_length snd). rewrite <- (seq_length (nnz m) 0). apply NoDup_incl_length.
  - apply ShProofs.NoDup_map_on; [apply edges_nodup|]. intros [[u v] j] [[u' v'] j'] I I' E. cbn in E. subst j'. apply in_edges in I. apply in_edges in I'. pose proof (Hrows _ _ _ _ _ I I'). subst u'.
    destruct I as (a & e & _ & _ & _ & C). destruct I' as (a' & e' & _ & _ & _ & C'). congruence.
  - intros j I. apply in_map_iff in I as ([[u v] j'] & E & I). cbn in E. subst j'. apply in_edges in I. apply entry_u in I. apply in_seq. lia.
Qed.
Definition jof (k : nat * nat) : nat := match find (fun e => if keq (fst e) k then true else false) (edges m) with Some e => snd e | None => 0 end.
Lemma jof_ok u v j : entry u v j -> jof (u, v) = j.
Proof.
  intro En. unfold jof. destruct (find _ _) as [[[u' v'] j']|] eqn:F.
  - apply find_some in F as (I & Q). cbn [fst] in Q. destruct (keq (u', v') (u, v)) as [E|]; [|discriminate]. inversion E; subst. apply in_edges in I. cbn. eauto.
  - apply in_edges in En. pose proof (find_none _ _ F _ En) as Q. cbn [fst] in Q. destruct (keq (u, v) (u, v)); congruence.
Qed.
Lemma writes_ok (l : list (@op (nat * nat) * Z)) : (forall o r, In (o, r) l -> (0 <= r)%Z) -> forall js, length js = length l -> writes l js = Some (combine (map (fun p => Z.to_nat (snd p)) l) js).
Proof.
  induction l as [|[o r] l IH]; intros H [|j js] E; try discriminate; [reflexivity|]. cbn [writes]. pose proof (H o r (or_introl eq_refl)). destruct (Z.ltb_spec r 0); [lia|].
  rewrite IH; [reflexivity| |cbn in E; lia]. intros; eapply H; right; eauto.
Qed.
Lemma F2_length {X Y} (R : X -> Y -> Prop) l r : Forall2 R l r -> length l = length r.
Proof. induction 1; cbn; auto. Qed.
Lemma F2_combine {X Y Z'} (R : X -> Y -> Prop) (f : X -> Z') l r p y : Forall2 R l r -> In (p, y) (combine (map f l) r) -> exists x, In x l /\ f x = p /\ R x y.
Proof.
  induction 1 as [|a b l r Rab F IH]; cbn; [intros []|]. intros [E|I].
  - inversion E; subst. exists a. auto.
  - destruct (IH I) as (x & Ix & E & Rx). exists x. auto.
Qed.
Lemma map_fst_combine {X Y} (l : list X) : forall r : list Y, length r = length l -> map fst (combine l r) = l.
Proof. induction l as [|a l IH]; intros [|b r] E; cbn in *; try discriminate; auto. rewrite IH by lia. reflexivity. Qed.

Variable sent : nat * nat.
Variable h : nat -> nat * nat -> nat.
Variable B : nat.
Variable W : Z.
Hypothesis HB : 3 <= B.
Hypothesis HW : (64 <= W)%Z.
Hypothesis HT : (Z.of_nat (table_size B (nnz m)) <= W)%Z.
Hypothesis Hsent : forall j, ~ entry (fst sent) (snd sent) j.

Lemma table_ok r : table_run sent h B W m r -> exists t buf, r = Some (t, buf) /\ forall u v j, entry u v j -> edge_id h B t buf u v = Some j.
Proof.
  intros (t0 & es & progs & k & s & js & garbage & Pe & Cp & Fr & St & Fin & NF & F2 & Lg & Res).
  assert (R : reach keq sent h B W t0) by (eapply R_new; exact Fr).
  assert (D0 : dictionary keq sent h B t0 []) by (replace (@nil (nat * nat)) with (firstn (cnt t0) (act t0)); [apply (C28_query_is_position_in_active_keys _ keq sent h B W HB ltac:(lia) _ R)|]; destruct Fr as (_ & _ & _ & _ & -> & _); reflexivity).
  assert (Pk : Permutation (concat progs) (map fst (edges m))) by (rewrite Cp; apply Permutation_map; exact Pe).
  assert (Nk : Forall (Forall (fun x => x <> sent)) progs).
  { apply Forall_forall. intros p Ip. apply Forall_forall. intros x Ix. intros ->. assert (I : In sent (concat progs)) by (apply in_concat; eauto). apply (Permutation_in _ Pk), in_map_iff in I as ([[u v] j] & E & I). cbn in E. subst sent. apply in_edges in I. exact (Hsent j I). }
  assert (Ht0 : (Z.of_nat (tsize t0) <= W)%Z) by (destruct Fr as (-> & _); exact HT).
  destruct (C27_insertion_numbers_each_key_once _ keq sent h B W HB HW t0 [] progs k s R Ht0 D0 Nk St Fin) as (PL & _ & new & Dn & Sub & Nh & Each & Full).
  cbn [app length] in *. destruct (Full NF) as (All & PH). clear Full. destruct Dn as (Nn & _ & Cn & _ & Qn & _).
  assert (Np : NoDup (concat progs)) by (eapply Permutation_NoDup; [apply Permutation_sym; exact Pk|apply edges_keys]).
  assert (Ln : length new = length (log s)).
  { rewrite (same_length new (concat progs) Nn Np) by (intro x; split; auto). pose proof (Permutation_length PL) as Q. rewrite !map_length in Q. exact Q. }
  assert (Pos : forall o r, In (o, r) (log s) -> (0 <= r)%Z).
  { intros o r0 I. apply Permutation_length in PH. rewrite map_length, seq_length in PH. unfold handed in PH. rewrite Ln, <- (map_length snd (log s)) in PH. pose proof (filter_full _ _ PH r0) as Q. cbv beta in Q. apply Z.leb_le. apply Q. apply in_map_iff. exists (o, r0). auto. }
  assert (Num : forall o r, In (o, r) (log s) -> numbered new (okey o) r).
  { intros o r0 I. destruct (Each _ _ I) as [[E _]|[[_ Q]|[E _]]]; [pose proof (Pos _ _ I); lia|exact Q|destruct (NF _ _ I E)]. }
  pose proof (F2_length _ _ _ F2) as Ljs. rewrite (writes_ok _ Pos js) in Res by lia. destruct Res as (order & Po & Er).
  assert (Lt : length (map jof new) <= length garbage).
  { rewrite map_length, Lg. rewrite (same_length new (concat progs) Nn Np) by (intro x; split; auto). rewrite (Permutation_length Pk), map_length. apply edges_count. }
  rewrite (stores_cover (map jof new)) in Er; [|exact Lt| |].
  - cbn [bind] in Er. eexists _, _. split; [exact Er|]. intros u v j En. unfold edge_id.
    assert (I : In (plain (u, v)) (map fst (log s))) by (apply (Permutation_in _ PL), in_map, (Permutation_in _ (Permutation_sym Pk)), in_map_iff; exists (u, v, j); split; [reflexivity|apply in_edges; exact En]).
    apply in_map_iff in I as ([o r0] & E & I). cbn in E. subst o. pose proof (Num _ _ I) as Nu. cbn [okey plain] in Nu. rewrite (Qn _ _ Nu). cbn [bind]. destruct Nu as (P0 & Nu). destruct (Z.ltb_spec r0 0); [lia|].
    rewrite nth_error_app1 by (rewrite map_length; eapply nth_error_some_lt; eauto). rewrite (map_nth_error jof _ _ Nu). rewrite (jof_ok _ _ _ En). reflexivity.
  - intros p e I. apply (Permutation_in _ Po) in I. destruct (F2_combine _ _ _ _ _ _ F2 I) as ([o r0] & Io & E & Ie). cbn [fst snd] in *. subst p. destruct (Num _ _ Io) as (_ & Q). rewrite (map_nth_error jof _ _ Q). destruct (okey o) as [u v]. apply in_edges in Ie. rewrite (jof_ok _ _ _ Ie). reflexivity.
  - intros p Lp. rewrite map_length in Lp. apply (Permutation_in _ (Permutation_map fst (Permutation_sym Po))). rewrite map_fst_combine by (rewrite map_length; lia).
    assert (I : In (Z.of_nat p) (handed (log s))) by (apply (Permutation_in _ (Permutation_sym PH)), in_map, in_seq; lia). unfold handed in I. apply filter_In in I as (I & _). apply in_map_iff in I as ([o r0] & E & I). cbn in E. subst r0.
    apply in_map_iff. exists (o, Z.of_nat p). cbn. split; [lia|exact I].
Qed.
End T.
