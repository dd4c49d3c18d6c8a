(** complementTopo adds the missing ancestors and their child masks; reorder moves the blocks consistently. *)
From Verif Require Import Prelude AgridModel AgridSpec AgridProofs AghModel AghSpec AghProofs.
Open Scope nat_scope.

Section Lists.
Variable V : Type.
Local Notation level := (level V).
(** predicates along the list of levels *)
Fixpoint each (P : nat -> level -> Prop) (g : list level) : Prop := match g with [] => True | l :: r => P (length r) l /\ each P r end.
Fixpoint chain (P : nat -> level -> level -> Prop) (g : list level) : Prop :=
  match g with [] => True | l :: r => match r with [] => True | lc :: _ => P (length r) l lc end /\ chain P r end.
Fixpoint each2 (P : nat -> level -> level -> Prop) (g h : list level) : Prop :=
  match g, h with [], [] => True | l :: r, l' :: r' => P (length r) l l' /\ each2 P r r' | _, _ => False end.

Lemma lev_top l r : lev V (l :: r) (length r) = Some l.
Proof. unfold lev. cbn. rewrite nth_error_app2 by (rewrite rev_length; lia). rewrite rev_length, Nat.sub_diag. reflexivity. Qed.
Lemma lev_low l r i : i < length r -> lev V (l :: r) i = lev V r i.
Proof. intro H. unfold lev. cbn. apply nth_error_app1. rewrite rev_length. exact H. Qed.
Lemma lev_lt g i l : lev V g i = Some l -> i < length g.
Proof. unfold lev. intro H. apply nth_error_some_lt in H. rewrite rev_length in H. exact H. Qed.
Lemma lev_some g i : i < length g -> exists l, lev V g i = Some l.
Proof. intro H. unfold lev. apply nth_error_lt_some. rewrite rev_length. exact H. Qed.
Lemma each_lev P g : each P g <-> forall i l, lev V g i = Some l -> P i l.
Proof.
  induction g as [|l r IH]; cbn [each].
  - split; [|tauto]. intros _ i l H. apply lev_lt in H. cbn in H. lia.
  - rewrite IH. split.
    + intros [A B] i l' H. pose proof (lev_lt _ _ _ H) as L. cbn in L. destruct (Nat.eq_dec i (length r)) as [->|]; [rewrite lev_top in H; injection H as <-; exact A|].
      rewrite lev_low in H by lia. auto.
    + intro H. split; [apply H, lev_top|]. intros i l' E. apply H. pose proof (lev_lt _ _ _ E). rewrite lev_low by assumption. exact E.
Qed.
Lemma each2_length P g h : each2 P g h -> length g = length h.
Proof. revert h. induction g as [|l r IH]; intros [|l' r'] H; cbn in *; try tauto. destruct H. rewrite (IH r'); auto. Qed.
Lemma each2_lev P g h : each2 P g h -> forall i l l', lev V g i = Some l -> lev V h i = Some l' -> P i l l'.
Proof.
  revert h. induction g as [|l r IH]; intros [|l' r'] H i a b E1 E2; cbn in H; try tauto; [apply lev_lt in E1; cbn in E1; lia|].
  destruct H as [H1 H2]. pose proof (each2_length _ _ _ H2) as L. pose proof (lev_lt _ _ _ E1) as Li. cbn in Li. destruct (Nat.eq_dec i (length r)) as [->|].
  - rewrite lev_top in E1. rewrite L, lev_top in E2. injection E1 as <-. injection E2 as <-. exact H1.
  - rewrite lev_low in E1 by lia. rewrite lev_low in E2 by lia. eauto.
Qed.

End Lists.

Section Topo.
Variables (T C : list Z) (dim n : nat) (V : Type) (zero bg : V).
Hypothesis K : params_ok T C dim n.
Local Notation key := (coord_to_key T C).
Local Notation hoff := (hoff T C).
Local Notation hpos := (hpos T C dim).
Local Notation hsz := (hsz T C dim).
Local Notation tsz := (tsz T dim).
Local Notation level := (level V).
Local Notation keys := (keys V).
Local Notation grid := (grid V).
Local Notation vmask := (vmask V).
Local Notation cmask := (cmask V).
Local Notation choff := (choff V).
Local Notation level_ok := (level_ok T C dim V).
Local Notation each := (each V).
Local Notation each2 := (each2 V).
Local Notation chain := (chain V).

(** insertion *)
Lemma insert_fold xs : forall ks, NoDup ks -> NoDup (fold_left insert_key xs ks) /\ (exists t, fold_left insert_key xs ks = ks ++ t) /\
  forall k, In k (fold_left insert_key xs ks) <-> In k ks \/ In k xs.
Proof.
  induction xs as [|x xs IH]; intros ks N; cbn [fold_left].
  - split; [exact N|]. split; [exists []; rewrite app_nil_r; reflexivity|]. intro k. cbn. tauto.
  - assert (Q : NoDup (insert_key ks x) /\ (exists t, insert_key ks x = ks ++ t) /\ forall k, In k (insert_key ks x) <-> In k ks \/ x = k).
    { unfold insert_key. destruct (query ks x) as [p|] eqn:E.
      - split; [exact N|]. split; [exists []; rewrite app_nil_r; reflexivity|]. intro k. split; [tauto|]. intros [H| <-]; [exact H|]. apply query_some in E. eapply nth_error_In; eauto.
      - split; [|split; [eauto|]].
        + apply (Permutation_NoDup (Permutation_cons_append ks x)). constructor; [apply query_none; exact E|exact N].
        + intro k. rewrite in_app_iff. cbn. tauto. }
    destruct Q as (N1 & (t1 & E1) & I1). destruct (IH _ N1) as (N2 & (t2 & E2) & I2). split; [exact N2|]. split.
    + exists (t1 ++ t2). rewrite E2, E1, app_assoc. reflexivity.
    + intro k. rewrite I2, I1. cbn. tauto.
Qed.

(** the child masks of a level describe the table below *)
Definition masks_right (j : nat) (l lc : level) : Prop :=
  forall p k, nth_error (keys l) p = Some k -> exists m, nth_error (elts (cmask l)) p = Some m /\ length m = hsz j /\
    forall q d, q < hsz j -> hpos j q = Some d -> exists b, nth_error m q = Some b /\ (b = true <-> In (vadd k d) (keys lc)).
Definition parents_in (j : nat) (l lc : level) : Prop := forall k, In k (keys lc) -> In (key j k) (keys l).
Definition keys_ok (j : nat) (l : level) : Prop := NoDup (keys l) /\ Forall (fun k => length k = dim /\ key j k = k) (keys l).

Lemma childmask_ok i ctab k : S i < n -> length k = dim -> key (S i) k = k -> exists m, childmask T C dim (S i) ctab k = Some m /\ length m = hsz (S i) /\
  forall q d, q < hsz (S i) -> hpos (S i) q = Some d -> exists b, nth_error m q = Some b /\ (b = true <-> In (vadd k d) ctab).
Proof.
  intros Hi Hk Kk. unfold childmask.
  match goal with |- context [mapM ?f _] => set (F := f) end.
  destruct (mapM_some F (seq 0 (hsz (S i)))) as [m E].
  { intros q Hq. apply in_seq in Hq. destruct (hpos_ok T C dim n K i k q Hi Hk Kk ltac:(lia)) as (d & D & _). unfold F. rewrite D. eauto. }
  exists m. split; [exact E|]. destruct (mapM_nth _ _ _ E) as [L N]. rewrite seq_length in L. split; [exact L|].
  intros q d Hq D. assert (Q : nth_error (seq 0 (hsz (S i))) q = Some q).
  { rewrite (nth_error_nth' _ 0) by (rewrite seq_length; exact Hq). rewrite seq_nth by exact Hq. reflexivity. }
  destruct (N q q Q) as (b & Fb & Nb). exists b. split; [exact Nb|]. unfold F in Fb. rewrite D in Fb.
  destruct (query ctab (vadd k d)) as [p|] eqn:E2; injection Fb as <-.
  - split; [|reflexivity]. intros _. apply query_some in E2. eapply nth_error_In; eauto.
  - apply query_none in E2. split; [discriminate|tauto].
Qed.

Lemma resize_fill {A} (d e : A) (l : list A) t : fill_from d (length l) (resize_list e l (length l + t)) = l ++ repeat d t.
Proof.
  unfold fill_from, resize_list. rewrite (firstn_all2 l) by lia. rewrite firstn_app, Nat.sub_diag, firstn_all, firstn_O, app_nil_r.
  rewrite app_length, repeat_length. f_equal. f_equal. lia.
Qed.

Definition grown (j : nat) (l l' : level) : Prop :=
  exists t, keys l' = keys l ++ t /\ grid l' = grid l ++ repeat (repeat zero (tsz j)) (length t) /\
    elts (vmask l') = elts (vmask l) ++ repeat (repeat false (tsz j)) (length t).

Lemma complement_level_ok sched i lp lc : (forall i l, Permutation (sched i l) l) -> S i < n -> level_ok (S i) lp -> keys_ok i lc ->
  exists l', complement_level T C dim V zero sched (S i) lp lc = Some l' /\ level_ok (S i) l' /\ masks_right (S i) l' lc /\ grown (S i) lp l' /\
    length (choff l') = length (keys l') + 1 /\ (forall k, In k (keys l') <-> In k (keys lp) \/ exists ck, In ck (keys lc) /\ k = key (S i) ck).
Proof.
  intros HS Hi (N & F & G1 & G2 & V1 & V2 & C1 & Cv & Cc) [Nc Fc]. unfold complement_level.
  set (xs := map (key (S i)) (sched (S i) (keys lc))). destruct (insert_fold xs (keys lp) N) as (N' & (t & E) & I). set (ks := fold_left insert_key xs (keys lp)) in *.
  assert (In_xs : forall k, In k xs <-> exists ck, In ck (keys lc) /\ k = key (S i) ck).
  { intro k. unfold xs. rewrite in_map_iff. split; intros (ck & A & B).
    - exists ck. split; [|auto]. eapply Permutation_in; [apply HS|exact B].
    - exists ck. split; [auto|]. eapply Permutation_in; [symmetry; apply HS|exact A]. }
  assert (Fk : Forall (fun k => length k = dim /\ key (S i) k = k) ks).
  { apply Forall_forall. intros k Hk. apply I in Hk. destruct Hk as [Hk|Hk]; [exact (proj1 (Forall_forall _ _) F k Hk)|].
    apply In_xs in Hk. destruct Hk as (ck & A & ->). pose proof (proj1 (Forall_forall _ _) Fc ck A) as [B1 B2]. rewrite key_len. split; [exact B1|]. apply (key_key T C dim n K). lia. }
  destruct (mapM_some (childmask T C dim (S i) (keys lc)) ks) as [ms Ems].
  { intros k Hk. pose proof (proj1 (Forall_forall _ _) Fk k Hk) as [B1 B2]. destruct (childmask_ok i (keys lc) k Hi B1 B2) as (m & Em & _). eauto. }
  rewrite Ems. destruct (mapM_nth _ _ _ Ems) as [Lms Nms].
  eexists. split; [reflexivity|]. cbn [AghModel.keys AghModel.grid AghModel.vmask AghModel.cmask AghModel.choff elts cap mresize].
  assert (Lk : length ks = length (keys lp) + length t) by (rewrite E, app_length; reflexivity).
  assert (Eg : fill_from (repeat zero (tsz (S i))) (length (keys lp)) (resize_list [] (grid lp) (length ks)) = grid lp ++ repeat (repeat zero (tsz (S i))) (length t)).
  { rewrite Lk, <- G1. apply resize_fill. }
  assert (Ev : fill_from (repeat false (tsz (S i))) (length (keys lp)) (resize_list [] (elts (vmask lp)) (length ks)) = elts (vmask lp) ++ repeat (repeat false (tsz (S i))) (length t)).
  { rewrite Lk, <- V1. apply resize_fill. }
  assert (Rp : forall (A : Type) (x : A) q, Forall (fun m => length m = tsz (S i)) (repeat (repeat x (tsz (S i))) q)).
  { intros A x q. apply Forall_forall. intros m Hm. apply repeat_spec in Hm. subst. apply repeat_length. }
  split; [|split; [|split; [|split]]].
  - unfold AghSpec.level_ok. cbn [AghModel.keys AghModel.grid AghModel.vmask AghModel.cmask elts cap]. rewrite Eg, Ev.
    split; [exact N'|]. split; [exact Fk|]. rewrite !app_length, !repeat_length, Lms.
    split; [lia|]. split; [apply Forall_app; split; [exact G2|apply Rp]|]. split; [lia|]. split; [apply Forall_app; split; [exact V2|apply Rp]|]. split; [reflexivity|].
    split.
    + destruct (Nat.leb_spec (length ks) (cap (vmask lp))); lia.
    + destruct (Nat.leb_spec (length ks) (cap (cmask lp))); lia.
  - intros p k Hp. cbn [AghModel.keys AghModel.cmask elts] in *. destruct (Nms p k Hp) as (m & Em & Nm).
    pose proof (proj1 (Forall_forall _ _) Fk k (nth_error_In _ _ Hp)) as [B1 B2]. destruct (childmask_ok i (keys lc) k Hi B1 B2) as (m' & Em' & R).
    rewrite Em in Em'. injection Em' as <-. exists m. split; [exact Nm|exact R].
  - exists t. cbn [AghModel.keys AghModel.grid AghModel.vmask elts]. rewrite Eg, Ev. split; [exact E|]. split; reflexivity.
  - unfold resize_list. rewrite app_length, firstn_length, repeat_length. lia.
  - intro k. rewrite I, In_xs. tauto.
Qed.

(** complementTopo without the final reorder *)
Definition comp_rel (sched : nat -> list coord -> list coord) (i : nat) (l l' : level) : Prop := match i with 0 => l' = l | S _ => grown i l l' /\ length (choff l') = length (keys l') + 1 end.
Definition spawn (g : list level) (j : nat) (l' lc' : level) : Prop :=
  masks_right j l' lc' /\ forall k, In k (keys l') <-> has_key V g j k \/ exists ck, In ck (keys lc') /\ k = key j ck.
Lemma chain_impl (P Q : nat -> level -> level -> Prop) g : (forall j l lc, j < length g -> P j l lc -> Q j l lc) -> chain P g -> chain Q g.
Proof.
  induction g as [|l r IH]; cbn [chain]; [tauto|]. intros H [A B]. split; [|apply IH; [intros; apply H; [cbn; lia|assumption]|exact B]].
  destruct r as [|lc r]; [tauto|]. apply H; [cbn; lia|exact A].
Qed.
Lemma complement_up_ok sched g : (forall i l, Permutation (sched i l) l) -> length g <= n -> each level_ok g ->
  exists g', complement_up T C dim V zero sched g = Some g' /\ each level_ok g' /\ each2 (comp_rel sched) g g' /\ chain (spawn g) g'.
Proof.
  intros HS. induction g as [|l r IH]; intros L E; cbn [complement_up].
  - exists []. cbn. auto.
  - cbn [each] in E. destruct E as [E1 E2]. destruct IH as (r' & R1 & R2 & R3 & R4); [cbn in L; lia|exact E2|]. rewrite R1.
    pose proof (each2_length V _ _ _ R3) as Lr.
    assert (R4' : chain (spawn (l :: r)) r').
    { apply (chain_impl (spawn r)); [|exact R4]. intros j a b Hj [A B]. split; [exact A|]. intro k. rewrite B. unfold has_key. rewrite lev_low by lia. tauto. }
    destruct r' as [|lc r'].
    + destruct r; [|discriminate]. exists [l]. exact (conj eq_refl (conj (conj E1 I) (conj (conj eq_refl I) (conj I I)))).
    + cbn [length] in Lr. rewrite Lr.
      destruct (complement_level_ok sched (length r') l lc) as (l' & A1 & A2 & A3 & A4 & A5 & A6); [exact HS|cbn in L; lia|rewrite <- Lr; exact E1|split; [exact (proj1 (proj1 R2))|exact (proj1 (proj2 (proj1 R2)))]|].
      rewrite A1. exists (l' :: lc :: r'). split; [reflexivity|]. split; [cbn [each] in R2 |- *; exact (conj A2 R2)|]. split.
      * cbn [each2]. split; [rewrite Lr; split; assumption|exact R3].
      * cbn [chain]. split; [|exact R4']. cbn [length]. split; [exact A3|]. intro k. rewrite A6. unfold has_key. rewrite <- Lr, lev_top.
        split; (intros [H|H]; [left|right; exact H]); [eauto|]. destruct H as (x & X & Y). injection X as <-. exact Y.
Qed.

(** moving the blocks of a level *)
Definition moved (l l' : level) : Prop :=
  NoDup (keys l') /\ length (keys l') = length (keys l) /\ (forall k, In k (keys l') <-> In k (keys l)) /\
  forall p k, nth_error (keys l') p = Some k -> exists q, nth_error (keys l) q = Some k /\ nth_error (elts (vmask l')) p = nth_error (elts (vmask l)) q /\
    nth_error (elts (cmask l')) p = nth_error (elts (cmask l)) q.
Definition moved_data (l l' : level) : Prop :=
  forall p q k, nth_error (keys l') p = Some k -> nth_error (keys l) q = Some k -> nth_error (grid l') p = nth_error (grid l) q.

Lemma move_ok {A} scat m (vs base : list A) N : length vs = N -> N <= length base -> Permutation m (seq 0 N) ->
  exists r, move scat m vs base = Some r /\ length r = length base /\
    forall i j, nth_error m i = Some j -> if scat then nth_error r j = nth_error vs i else nth_error r i = nth_error vs j.
Proof.
  intros Lv Lb P. pose proof (Permutation_length P) as Lm. rewrite seq_length in Lm.
  assert (B : forall d, In d m -> d < N) by (intros d Hd; apply (Permutation_in _ P) in Hd; apply in_seq in Hd; lia).
  destruct scat; cbn [move].
  - destruct (scatter_ok m vs base) as (r & R1 & R2 & R3 & R4); [lia| |apply Forall_forall; intros d Hd; specialize (B d Hd); lia|].
    { apply (Permutation_NoDup (Permutation_sym P)), seq_NoDup. }
    exists r. split; [exact R1|]. split; [exact R2|]. intros i j H. destruct (nth_error_lt_some vs i) as [v E]; [apply nth_error_some_lt in H; lia|]. rewrite E. eauto.
  - unfold gather. destruct (mapM_some (nth_error vs) m) as [ws Ew]; [intros d Hd; apply nth_error_lt_some; specialize (B d Hd); lia|]. rewrite Ew.
    destruct (mapM_nth _ _ _ Ew) as [Lw Nw]. destruct (scatter_ok (seq 0 (length m)) ws base) as (r & R1 & R2 & R3 & R4).
    { rewrite seq_length; lia. } { apply seq_NoDup. } { apply Forall_forall. intros d Hd. apply in_seq in Hd. lia. }
    exists r. split; [exact R1|]. split; [exact R2|]. intros i j H. destruct (Nw i j H) as (w & E1 & E2). rewrite E1. apply (R3 i i w); [|exact E2].
    apply nth_error_some_lt in H. rewrite (nth_error_nth' _ 0) by (rewrite seq_length; exact H). rewrite seq_nth by exact H. reflexivity.
Qed.

(** what reorder needs of a level *)
Definition sized (sortg : bool) (l : level) : Prop :=
  NoDup (keys l) /\ (sortg = true -> length (grid l) = length (keys l)) /\ length (elts (vmask l)) = length (keys l) /\ length (elts (cmask l)) = length (keys l) /\
  length (elts (vmask l)) <= cap (vmask l) /\ length (elts (cmask l)) <= cap (cmask l).
Lemma perm_inv_l m N i : Permutation m (seq 0 N) -> i < N -> exists j, nth_error m i = Some j /\ j < N.
Proof.
  intros P H. pose proof (Permutation_length P) as L. rewrite seq_length in L. destruct (nth_error_lt_some m i) as [j E]; [lia|]. exists j. split; [exact E|].
  apply nth_error_In in E. apply (Permutation_in _ P) in E. apply in_seq in E. lia.
Qed.
Lemma perm_inv_r m N j : Permutation m (seq 0 N) -> j < N -> exists i, nth_error m i = Some j /\ i < N.
Proof.
  intros P H. pose proof (Permutation_length P) as L. rewrite seq_length in L. assert (A : In j m) by (apply (Permutation_in _ (Permutation_sym P)), in_seq; lia).
  apply In_nth_error in A. destruct A as [i E]. exists i. split; [exact E|]. apply nth_error_some_lt in E. lia.
Qed.
Lemma level_reorder_ok sortg scat m l : sized sortg l -> Permutation m (seq 0 (length (keys l))) ->
  exists l', level_reorder V sortg scat m l = Some l' /\ moved l l' /\ choff l' = choff l /\ (sortg = true -> moved_data l l') /\
    length (elts (vmask l')) = cap (vmask l) /\ length (elts (cmask l')) = cap (cmask l) /\
    forall i j, nth_error m i = Some j -> if scat then nth_error (keys l') j = nth_error (keys l) i else nth_error (keys l') i = nth_error (keys l) j.
Proof.
  intros (N & G & Vl & Cl & Cv & Cc) P. pose proof (Permutation_length P) as Lm. rewrite seq_length in Lm. set (nb := length (keys l)) in *.
  destruct (move_ok scat m (keys l) (repeat [] nb) nb) as (k' & K1 & K2 & K3); [reflexivity|rewrite repeat_length; lia|exact P|].
  destruct (move_ok scat m (elts (vmask l)) (repeat [] (cap (vmask l))) nb) as (v' & V1 & V2 & V3); [exact Vl|rewrite repeat_length; lia|exact P|].
  destruct (move_ok scat m (elts (cmask l)) (repeat [] (cap (cmask l))) nb) as (c' & C1 & C2 & C3); [exact Cl|rewrite repeat_length; lia|exact P|].
  assert (Gx : exists g', (if sortg then greorder V scat m (grid l) else Some (grid l)) = Some g' /\
            (sortg = true -> forall i j, nth_error m i = Some j -> if scat then nth_error g' j = nth_error (grid l) i else nth_error g' i = nth_error (grid l) j)).
  { destruct sortg; [|eexists; split; [reflexivity|discriminate]]. specialize (G eq_refl). unfold greorder. rewrite (proj2 (Nat.eqb_eq _ _)) by lia.
    destruct (move_ok scat m (grid l) (repeat [] (length (grid l))) nb) as (g' & G1 & G2 & G3); [exact G|rewrite repeat_length; lia|exact P|]. exists g'. split; [exact G1|]. intros _. exact G3. }
  destruct Gx as (g' & G1 & G3).
  assert (EL : level_reorder V sortg scat m l = Some (Level V k' g' (MV v' (cap (vmask l))) (MV c' (cap (cmask l))) (choff l))).
  { unfold level_reorder, kreorder, mreorder. rewrite Vl, Cl. fold nb. rewrite (proj2 (Nat.eqb_eq (length m) nb)) by exact Lm. rewrite K1, V1, C1, G1. reflexivity. }
  eexists. split; [exact EL|]. rewrite repeat_length in K2, V2, C2.
  (* the partner of a position *)
  assert (Part : forall p, p < nb -> exists q, q < nb /\ nth_error k' p = nth_error (keys l) q /\ nth_error v' p = nth_error (elts (vmask l)) q /\ nth_error c' p = nth_error (elts (cmask l)) q /\
            (sortg = true -> nth_error g' p = nth_error (grid l) q)).
  { intros p Hp. destruct scat.
    - destruct (perm_inv_r m nb p P Hp) as (i & Ei & Li). exists i. split; [exact Li|]. split; [exact (K3 _ _ Ei)|]. split; [exact (V3 _ _ Ei)|]. split; [exact (C3 _ _ Ei)|]. intro S. exact (G3 S _ _ Ei).
    - destruct (perm_inv_l m nb p P Hp) as (j & Ej & Lj). exists j. split; [exact Lj|]. split; [exact (K3 _ _ Ej)|]. split; [exact (V3 _ _ Ej)|]. split; [exact (C3 _ _ Ej)|]. intro S. exact (G3 S _ _ Ej). }
  assert (Part2 : forall q, q < nb -> exists p, p < nb /\ nth_error k' p = nth_error (keys l) q).
  { intros q Hq. destruct scat.
    - destruct (perm_inv_l m nb q P Hq) as (j & Ej & Lj). exists j. split; [exact Lj|exact (K3 _ _ Ej)].
    - destruct (perm_inv_r m nb q P Hq) as (i & Ei & Li). exists i. split; [exact Li|exact (K3 _ _ Ei)]. }
  assert (Ink : forall k, In k k' <-> In k (keys l)).
  { intro k. split; intro H; apply In_nth_error in H; destruct H as [p E].
    - destruct (Part p) as (q & _ & Q & _); [apply nth_error_some_lt in E; lia|]. rewrite E in Q. symmetry in Q. eapply nth_error_In; eauto.
    - destruct (Part2 p) as (q & _ & Q); [apply nth_error_some_lt in E; exact E|]. rewrite E in Q. eapply nth_error_In; eauto. }
  assert (Nk : NoDup k').
  { apply (@NoDup_incl_NoDup _ (keys l)); [exact N|lia|]. intros k Hk. apply Ink. exact Hk. }
  unfold moved, moved_data. cbn [AghModel.keys AghModel.grid AghModel.vmask AghModel.cmask AghModel.choff elts]. repeat match goal with |- _ /\ _ => split end.
  - exact Nk.
  - exact K2.
  - exact Ink.
  - intros p k Hp. destruct (Part p) as (q & _ & Q1 & Q2 & Q3 & _); [apply nth_error_some_lt in Hp; lia|]. exists q. rewrite <- Q1, Hp. auto.
  - reflexivity.
  - intros S p q k Hp Hq. destruct (Part p) as (q' & _ & Q1 & Q2 & Q3 & Q4); [apply nth_error_some_lt in Hp; lia|]. rewrite (Q4 S). f_equal.
    eapply (proj1 (NoDup_nth_error (keys l))); [exact N| |congruence]. rewrite Hp in Q1. symmetry in Q1. apply nth_error_some_lt in Q1. exact Q1.
  - exact V2.
  - exact C2.
  - exact K3.
Qed.
End Topo.
