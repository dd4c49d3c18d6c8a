(** After reorder the n-th child of a block is found at its childOffset plus the rank of n. *)
From Verif Require Import Prelude AgridModel AgridSpec AgridProofs AghModel AghSpec AghProofs AghProofs2.
Open Scope nat_scope.

Lemma NoDup_flat_map {A B} (f : A -> list B) l : NoDup l -> (forall a, In a l -> NoDup (f a)) ->
  (forall a b x, In a l -> In b l -> In x (f a) -> In x (f b) -> a = b) -> NoDup (flat_map f l).
Proof.
  induction 1 as [|a l Ha N IH]; intros H1 H2; cbn [flat_map]; [constructor|].
  assert (D : forall x, In x (f a) -> ~ In x (flat_map f l)).
  { intros x X Y. apply in_flat_map in Y. destruct Y as (b & B1 & B2). apply Ha. rewrite (H2 a b x); auto; [left; reflexivity|right; assumption]. }
  specialize (IH (fun b Hb => H1 b (or_intror Hb)) (fun b c x Hb Hc => H2 b c x (or_intror Hb) (or_intror Hc))). pose proof (H1 a (or_introl eq_refl)) as Na.
  clear - D IH Na. induction (f a) as [|x s IHs]; cbn; [exact IH|]. inversion Na; subst. constructor; [|apply IHs; [intros y Hy; apply D; right; exact Hy|assumption]].
  rewrite in_app_iff. intros [X|X]; [contradiction|]. exact (D x (or_introl eq_refl) X).
Qed.
Lemma NoDup_map_on {A B} (f : A -> B) l : NoDup l -> (forall a b, In a l -> In b l -> f a = f b -> a = b) -> NoDup (map f l).
Proof.
  induction 1 as [|a l Ha N IH]; intro H; cbn; [constructor|]. constructor; [|apply IH; intros; apply H; auto; right; assumption].
  rewrite in_map_iff. intros (b & E & Hb). apply Ha. rewrite (H a b); auto; [left; reflexivity|right; assumption].
Qed.
Lemma seq_nth_error N p : p < N -> nth_error (seq 0 N) p = Some p.
Proof. intro H. rewrite (nth_error_nth' _ 0) by (rewrite seq_length; exact H). rewrite seq_nth by exact H. reflexivity. Qed.

Section Order.
Variables (T C : list Z) (dim n : nat) (V : Type) (zero bg : V).
Hypothesis K : params_ok T C dim n.
Local Notation key := (coord_to_key T C).
Local Notation hoff := (hoff T C).
Local Notation hpos := (hpos T C dim).
Local Notation hsz := (hsz T C dim).
Local Notation tsz := (tsz T dim).
Local Notation level := (level V).
Local Notation keys := (keys V).
Local Notation grid := (grid V).
Local Notation vmask := (vmask V).
Local Notation cmask := (cmask V).
Local Notation choff := (choff V).
Local Notation level_ok := (level_ok T C dim V).
Local Notation masks_right := (masks_right T C dim V).
Local Notation parents_in := (parents_in T C V).
Local Notation keys_ok := (keys_ok T C dim V).
Local Notation moved := (moved V).
Local Notation moved_data := (moved_data V).
Local Notation sized := (sized V).
Local Notation each := (each V).
Local Notation each2 := (each2 V).
Local Notation chain := (chain V).

Definition placed (j : nat) (l lc : level) : Prop :=
  forall p k m q d, nth_error (keys l) p = Some k -> nth_error (elts (cmask l)) p = Some m -> nth_error m q = Some true -> hpos j q = Some d ->
    exists o, nth_error (choff l) p = Some o /\ nth_error (keys lc) (o + count_offset m q) = Some (vadd k d).

Lemma count_children_ok l : (forall p, p < length (keys l) -> exists m, nth_error (elts (cmask l)) p = Some m) -> length (keys l) + 1 <= length (choff l) ->
  exists l', count_children V l = Some l' /\ keys l' = keys l /\ grid l' = grid l /\ vmask l' = vmask l /\ cmask l' = cmask l /\
    forall p, p < length (keys l) -> nth_error (choff l') p = nth_error (scan_from 0 (map (fun q => count_on (nth q (elts (cmask l)) [])) (seq 0 (length (keys l))))) p.
Proof.
  intros H L. unfold count_children. set (nb := length (keys l)) in *.
  match goal with |- context [mapM ?f _] => set (F := f) end.
  assert (E : mapM F (seq 0 nb) = Some (map (fun q => count_on (nth q (elts (cmask l)) [])) (seq 0 nb))).
  { assert (Q : forall p, In p (seq 0 nb) -> F p = Some (count_on (nth p (elts (cmask l)) []))).
    { intros p Hp. apply in_seq in Hp. destruct (H p ltac:(lia)) as [m Em]. unfold F. rewrite Em. cbn. rewrite (nth_error_nth _ _ [] Em). reflexivity. }
    revert Q. generalize (seq 0 nb). intro s. induction s as [|x s IH]; intro Q; [reflexivity|]. cbn [mapM map]. rewrite (Q x (or_introl eq_refl)). rewrite IH by (intros; apply Q; right; assumption). reflexivity. }
  rewrite E. rewrite (proj2 (Nat.leb_le _ _) L). eexists. split; [reflexivity|]. repeat (split; [reflexivity|]). intros p Hp. cbn [AghModel.choff].
  apply nth_error_app1. rewrite scan_len, map_length, seq_length. lia.
Qed.

Section Step.
Variables (i : nat) (l l' lc : level).
Hypothesis Hi : S i < n.
Hypothesis Kl : keys_ok (S i) l.
Hypothesis Kc : keys_ok i lc.
Hypothesis Mr : masks_right (S i) l lc.
Hypothesis Pi : parents_in (S i) l lc.
Hypothesis E1 : keys l' = keys l.
Hypothesis E2 : cmask l' = cmask l.
Hypothesis E3 : forall p, p < length (keys l) -> nth_error (choff l') p = nth_error (scan_from 0 (map (fun q => count_on (nth q (elts (cmask l)) [])) (seq 0 (length (keys l))))) p.

Let f (q : nat) : list coord := match nth_error (keys l) q, nth_error (elts (cmask l)) q with
  | Some k, Some m => map (fun r => match hpos (S i) r with Some d => vadd k d | None => [] end) (ons m) | _, _ => [] end.
Let canon := flat_map f (seq 0 (length (keys l))).

Lemma f_at p k m : nth_error (keys l) p = Some k -> nth_error (elts (cmask l)) p = Some m -> f p = map (fun r => match hpos (S i) r with Some d => vadd k d | None => [] end) (ons m).
Proof. intros A B. unfold f. rewrite A, B. reflexivity. Qed.
Lemma at_p p : p < length (keys l) -> exists k m, nth_error (keys l) p = Some k /\ nth_error (elts (cmask l)) p = Some m /\ length k = dim /\ key (S i) k = k /\ length m = hsz (S i) /\
  forall q d, q < hsz (S i) -> hpos (S i) q = Some d -> exists b, nth_error m q = Some b /\ (b = true <-> In (vadd k d) (keys lc)).
Proof.
  intro H. destruct (nth_error_lt_some _ _ H) as [k E]. destruct (Mr p k E) as (m & A & B & D). exists k, m.
  pose proof (proj1 (Forall_forall _ _) (proj2 Kl) k (nth_error_In _ _ E)) as [F1 F2]. auto 10.
Qed.
Lemma f_in p x : p < length (keys l) -> In x (f p) -> exists k m q d, nth_error (keys l) p = Some k /\ nth_error (elts (cmask l)) p = Some m /\ nth_error m q = Some true /\
  hpos (S i) q = Some d /\ x = vadd k d /\ key (S i) x = k /\ hoff (S i) x = Some q /\ In x (keys lc).
Proof.
  intros Hp Hx. destruct (at_p p Hp) as (k & m & A & B & L & Kk & Lm & M). rewrite (f_at p k m A B) in Hx. apply in_map_iff in Hx. destruct Hx as (q & Q1 & Q2).
  apply ons_in in Q2. pose proof (nth_error_some_lt _ _ _ Q2) as Lq. rewrite Lm in Lq. destruct (hpos_ok T C dim n K i k q Hi L Kk Lq) as (d & D1 & D2 & D3 & D4 & D5).
  rewrite D1 in Q1. subst x. exists k, m, q, d. destruct (M q d Lq D1) as (b & B1 & B2). rewrite Q2 in B1. injection B1 as <-. repeat split; auto. apply B2. reflexivity.
Qed.
Lemma canon_in x : In x canon <-> In x (keys lc).
Proof.
  unfold canon. rewrite in_flat_map. split.
  - intros (p & A & B). apply in_seq in A. destruct (f_in p x ltac:(lia) B) as (k & m & q & d & H). tauto.
  - intro H. pose proof (Pi x H) as P. apply In_nth_error in P. destruct P as [p P]. pose proof (nth_error_some_lt _ _ _ P) as Lp. exists p. split; [apply in_seq; lia|].
    pose proof (proj1 (Forall_forall _ _) (proj2 Kc) x H) as [Lx Kx].
    destruct (at_p p Lp) as (k & m & A & B & L & Kk & Lm & M). rewrite P in A. injection A as <-. rewrite (f_at p _ m P B). apply in_map_iff.
    destruct (hoff_ok T C dim n K (S i) x Hi Lx) as (q & Q1 & Q2). destruct (child_pos T C dim n K i x q Hi Lx Q1) as (d & D1 & D2). rewrite Kx in D2.
    exists q. rewrite D1. split; [exact D2|]. apply ons_in. destruct (M q d Q2 D1) as (b & B1 & B2). rewrite B1. f_equal. apply B2. rewrite D2. exact H.
Qed.
Lemma canon_nodup : NoDup canon.
Proof.
  apply NoDup_flat_map; [apply seq_NoDup| |].
  - intros p Hp. apply in_seq in Hp. destruct (at_p p ltac:(lia)) as (k & m & A & B & L & Kk & Lm & M). rewrite (f_at p k m A B). apply NoDup_map_on; [apply ons_nodup|].
    assert (Q : forall q, In q (ons m) -> hoff (S i) (match hpos (S i) q with Some d => vadd k d | None => [] end) = Some q).
    { intros q Hq. apply ons_in in Hq. apply nth_error_some_lt in Hq. rewrite Lm in Hq. destruct (hpos_ok T C dim n K i k q Hi L Kk Hq) as (d & D1 & _ & _ & _ & D5). rewrite D1. exact D5. }
    intros a b Ha Hb E. pose proof (Q a Ha) as Qa. pose proof (Q b Hb) as Qb. rewrite E in Qa. congruence.
  - intros p q x Hp Hq Xp Xq. apply in_seq in Hp. apply in_seq in Hq. assert (Lp : p < length (keys l)) by lia. assert (Lq : q < length (keys l)) by lia. destruct (f_in p x Lp Xp) as (k & m & r & d & A1 & _ & _ & _ & _ & A2 & _). destruct (f_in q x Lq Xq) as (k' & m' & r' & d' & B1 & _ & _ & _ & _ & B2 & _).
    eapply (proj1 (NoDup_nth_error (keys l))); [exact (proj1 Kl)|exact Lp|]. rewrite A1, B1. congruence.
Qed.
Lemma canon_perm : Permutation canon (keys lc).
Proof. apply NoDup_Permutation; [exact canon_nodup|exact (proj1 Kc)|exact canon_in]. Qed.
Lemma canon_pos p k m q d : nth_error (keys l) p = Some k -> nth_error (elts (cmask l)) p = Some m -> nth_error m q = Some true -> hpos (S i) q = Some d ->
  exists o, nth_error (choff l') p = Some o /\ nth_error canon (o + count_offset m q) = Some (vadd k d).
Proof.
  intros A B Q D. pose proof (nth_error_some_lt _ _ _ A) as Lp. rewrite (E3 p Lp).
  assert (Ef : map (fun q => count_on (nth q (elts (cmask l)) [])) (seq 0 (length (keys l))) = map (fun q => length (f q)) (seq 0 (length (keys l)))).
  { apply map_ext_in. intros r Hr. apply in_seq in Hr. destruct (at_p r ltac:(lia)) as (kr & mr & Ar & Br & _). rewrite (f_at r kr mr Ar Br), map_length, ons_length. rewrite (nth_error_nth _ _ [] Br). reflexivity. }
  rewrite Ef. destruct (nth_error_lt_some (scan_from 0 (map (fun q => length (f q)) (seq 0 (length (keys l))))) p) as [o Eo]; [rewrite scan_len, map_length, seq_length; lia|].
  exists o. split; [exact Eo|]. pose proof (ons_rank m q Q) as R.
  assert (Rf : nth_error (f p) (count_offset m q) = Some (vadd k d)).
  { rewrite (f_at p k m A B). rewrite (map_nth_error _ _ _ R). rewrite D. reflexivity. }
  destruct (scan_nth f (length (keys l)) 0 0 p o Eo Lp (count_offset m q)) as (x & X1 & X2 & _); [apply nth_error_some_lt in Rf; exact Rf|].
  cbn [Nat.add] in X1. rewrite Rf in X1. injection X1 as <-. rewrite Nat.sub_0_r in X2. exact X2.
Qed.
Lemma locate_ok x : In x (keys lc) -> exists r, locate T C V (S i) l' x = Some r /\ nth_error canon r = Some x.
Proof.
  intro H. pose proof (Pi x H) as P. apply In_nth_error in P. destruct P as [p P]. pose proof (nth_error_some_lt _ _ _ P) as Lp.
  pose proof (proj1 (Forall_forall _ _) (proj2 Kc) x H) as [Lx Kx]. destruct (at_p p Lp) as (k & m & A & B & L & Kk & Lm & M). rewrite P in A. injection A as <-.
  destruct (hoff_ok T C dim n K (S i) x Hi Lx) as (q & Q1 & Q2). destruct (child_pos T C dim n K i x q Hi Lx Q1) as (d & D1 & D2). rewrite Kx in D2.
  assert (Qt : nth_error m q = Some true).
  { destruct (M q d Q2 D1) as (b & B1 & B2). rewrite B1. f_equal. apply B2. rewrite D2. exact H. }
  destruct (canon_pos p _ m q d P B Qt D1) as (o & O1 & O2). unfold locate. rewrite E1, (query_nth _ _ _ (proj1 Kl) P), Q1, O1, E2, B. exists (o + count_offset m q). split; [reflexivity|]. rewrite D2 in O2. exact O2.
Qed.
Lemma locate_all : exists dsts, mapM (locate T C V (S i) l') (keys lc) = Some dsts /\ Permutation dsts (seq 0 (length (keys lc))) /\
  forall lc', (forall a b, nth_error dsts a = Some b -> nth_error (keys lc') b = nth_error (keys lc) a) -> placed (S i) l' lc'.
Proof.
  destruct (mapM_some (locate T C V (S i) l') (keys lc)) as [dsts E].
  { intros x Hx. destruct (locate_ok x Hx) as (r & R & _). eauto. }
  destruct (mapM_nth _ _ _ E) as [L N]. exists dsts. split; [exact E|].
  assert (Q : forall a x, nth_error (keys lc) a = Some x -> exists r, nth_error dsts a = Some r /\ nth_error canon r = Some x).
  { intros a x Hx. destruct (N a x Hx) as (r & R1 & R2). destruct (locate_ok x (nth_error_In _ _ Hx)) as (r' & R3 & R4). rewrite R1 in R3. injection R3 as <-. eauto. }
  pose proof (Permutation_length canon_perm) as Lc.
  assert (P : Permutation dsts (seq 0 (length (keys lc)))).
  { apply NoDup_Permutation_bis.
    - apply NoDup_nth_error. intros a b Ha Eab. destruct (nth_error_lt_some (keys lc) a) as [x Hx]; [lia|]. destruct (Q a x Hx) as (r & R1 & R2).
      rewrite R1 in Eab. symmetry in Eab. pose proof (nth_error_some_lt _ _ _ Eab) as Lb. destruct (nth_error_lt_some (keys lc) b) as [y Hy]; [lia|]. destruct (Q b y Hy) as (r' & S1 & S2).
      rewrite Eab in S1. injection S1 as <-. rewrite R2 in S2. injection S2 as <-. eapply (proj1 (NoDup_nth_error (keys lc))); [exact (proj1 Kc)|lia|congruence].
    - rewrite seq_length. lia.
    - intros r Hr. apply In_nth_error in Hr. destruct Hr as [a Ha]. pose proof (nth_error_some_lt _ _ _ Ha) as La. destruct (nth_error_lt_some (keys lc) a) as [x Hx]; [lia|].
      destruct (Q a x Hx) as (r' & R1 & R2). rewrite Ha in R1. injection R1 as <-. apply nth_error_some_lt in R2. apply in_seq. lia. }
  split; [exact P|]. intros lc' Hlc p k m q d A B Qt D. rewrite E1 in A. rewrite E2 in B. destruct (canon_pos p k m q d A B Qt D) as (o & O1 & O2). exists o. split; [exact O1|].
  pose proof (nth_error_some_lt _ _ _ O2) as Lo. destruct (perm_inv_r dsts (length (keys lc)) (o + count_offset m q) P ltac:(lia)) as (a & Ha & La). rewrite (Hlc a _ Ha).
  destruct (nth_error_lt_some (keys lc) a La) as [x Hx]. destruct (Q a x Hx) as (r & R1 & R2). rewrite Ha in R1. injection R1 as <-. congruence.
Qed.
End Step.

(** the invariants only depend on what reorder keeps *)
Lemma masks_right_parent j l l' lc : moved l l' -> masks_right j l lc -> masks_right j l' lc.
Proof. intros (_ & _ & _ & M) H p k Hp. destruct (M p k Hp) as (q & Q1 & _ & Q3). destruct (H q k Q1) as (m & A & B). exists m. rewrite Q3. auto. Qed.
Lemma masks_right_child j l lc lc' : moved lc lc' -> masks_right j l lc -> masks_right j l lc'.
Proof.
  intros (_ & _ & I & _) H p k Hp. destruct (H p k Hp) as (m & A & B & D). exists m. split; [exact A|]. split; [exact B|]. intros q d Hq Hd. destruct (D q d Hq Hd) as (b & X & Y). exists b. rewrite I. auto.
Qed.
Lemma parents_in_moved j l l' lc lc' : moved l l' -> moved lc lc' -> parents_in j l lc -> parents_in j l' lc'.
Proof. intros (_ & _ & I & _) (_ & _ & I' & _) H k Hk. apply I. apply H. apply I'. exact Hk. Qed.
Lemma keys_ok_moved j l l' : moved l l' -> keys_ok j l -> keys_ok j l'.
Proof. intros (N & _ & I & _) [_ F]. split; [exact N|]. apply Forall_forall. intros k Hk. apply I in Hk. exact (proj1 (Forall_forall _ _) F k Hk). Qed.
Lemma moved_refl l : NoDup (keys l) -> moved l l.
Proof. intro N. split; [exact N|]. split; [reflexivity|]. split; [tauto|]. intros p k H. exists p. auto. Qed.
Lemma moved_same l l1 l2 : keys l2 = keys l1 -> vmask l2 = vmask l1 -> cmask l2 = cmask l1 -> moved l l1 -> moved l l2.
Proof. intros A B D. unfold AghProofs2.moved. rewrite A, B, D. tauto. Qed.
Lemma moved_data_same l l1 l2 : keys l2 = keys l1 -> grid l2 = grid l1 -> moved_data l l1 -> moved_data l l2.
Proof. intros A B. unfold AghProofs2.moved_data. rewrite A, B. tauto. Qed.

Definition kept (sortg : bool) (i : nat) (l l' : level) : Prop := moved l l' /\ (sortg = true -> moved_data l l').
Definition linked (j : nat) (l lc : level) : Prop := masks_right j l lc /\ parents_in j l lc.
Definition linked' (j : nat) (l lc : level) : Prop := masks_right j l lc /\ parents_in j l lc /\ placed j l lc.
Definition ready (sortg : bool) (i : nat) (l : level) : Prop := sized sortg l /\ keys_ok i l /\ (0 < i -> length (keys l) + 1 <= length (choff l)).

Lemma reorder_down_ok sortg rest : forall l, length rest < n -> keys_ok (length rest) l -> (0 < length rest -> length (keys l) + 1 <= length (choff l)) ->
  each (ready sortg) rest -> chain linked (l :: rest) ->
  exists l1 r, reorder_down T C V sortg l rest = Some (l1 :: r) /\ keys l1 = keys l /\ grid l1 = grid l /\ vmask l1 = vmask l /\ cmask l1 = cmask l /\
    each2 (kept sortg) rest r /\ chain linked' (l1 :: r).
Proof.
  induction rest as [|lc rest IH]; intros l Hn Kl Hc He Hch.
  - exists l, []. cbn. repeat split; auto.
  - cbn [reorder_down]. cbn [length] in *. destruct He as [(Sc & Kc & Oc) He]. destruct Hch as [[Mr Pi] Hch].
    destruct (count_children_ok l) as (l' & A1 & A2 & A3 & A4 & A5 & A6).
    { intros p Hp. destruct (nth_error_lt_some _ _ Hp) as [k Ek]. destruct (Mr p k Ek) as (m & Em & _). eauto. }
    { apply Hc. lia. }
    rewrite A1. destruct (locate_all (length rest) l l' lc ltac:(lia) Kl Kc Mr Pi A2 A5 A6) as (dsts & D1 & D2 & D3). rewrite D1.
    destruct (level_reorder_ok V sortg true dsts lc Sc D2) as (lc1 & B1 & B2 & B3 & B4 & B5 & B6 & B7). rewrite B1.
    destruct (IH lc1) as (lc2 & r & R1 & R2 & R3 & R4 & R5 & R6 & R7).
    { lia. } { exact (keys_ok_moved _ _ _ B2 Kc). }
    { intro H. rewrite B3. pose proof (proj1 (proj2 B2)) as E. rewrite E. apply Oc. exact H. }
    { exact He. }
    { cbn [AghProofs2.chain] in Hch |- *. destruct Hch as [H1 H2]. split; [|exact H2]. destruct rest as [|lcc rest]; [exact I|]. destruct H1 as [H1 H3]. split; [exact (masks_right_parent _ _ _ _ B2 H1)|].
      refine (parents_in_moved _ _ _ _ _ B2 _ H3). apply moved_refl. destruct He as [[(Nn & _) _] _]. exact Nn. }
    rewrite R1. exists l', (lc2 :: r). split; [reflexivity|]. repeat (split; [assumption|]).
    assert (Mv : moved lc lc2) by (apply (moved_same lc lc1 lc2 R2 R4 R5 B2)).
    assert (Lr : length rest = length r) by (eapply each2_length; exact R6). split; [|split; [|exact R7]].
    + split; [|exact R6]. split; [exact Mv|]. intro Es. exact (moved_data_same lc lc1 lc2 R2 R3 (B4 Es)).
    + cbn [length]. rewrite <- Lr. assert (Ml : moved l l') by (apply (moved_same l l l' A2 A4 A5); apply moved_refl; exact (proj1 Kl)).
      split; [exact (masks_right_child _ _ _ _ Mv (masks_right_parent _ _ _ _ Ml Mr))|]. split; [exact (parents_in_moved _ _ _ _ _ Ml Mv Pi)|].
      assert (Pl : placed (S (length rest)) l' lc1) by (apply D3; exact B7). intros p k m q d X1 X2 X3 X4. destruct (Pl p k m q d X1 X2 X3 X4) as (o & Y1 & Y2). exists o. rewrite R2. auto.
Qed.

Lemma reorder_ok sortg top l rest : length rest < n -> each (ready sortg) (l :: rest) -> chain linked (l :: rest) -> Permutation top (seq 0 (length (keys l))) ->
  exists h, reorder T C V sortg top (l :: rest) = Some h /\ each2 (kept sortg) (l :: rest) h /\ chain linked' h.
Proof.
  intros Hn [(Sl & Kl & Ol) He] Hch Pt. cbn [reorder]. destruct (level_reorder_ok V sortg false top l Sl Pt) as (l1 & B1 & B2 & B3 & B4 & _). rewrite B1.
  destruct (reorder_down_ok sortg rest l1) as (l2 & r & R1 & R2 & R3 & R4 & R5 & R6 & R7).
  { exact Hn. } { exact (keys_ok_moved _ _ _ B2 Kl). }
  { intro H. rewrite B3, (proj1 (proj2 B2)). apply Ol. exact H. }
  { exact He. }
  { cbn [AghProofs2.chain] in Hch |- *. destruct Hch as [H1 H2]. split; [|exact H2]. destruct rest as [|lcc rest]; [exact I|]. destruct H1 as [H1 H3]. split; [exact (masks_right_parent _ _ _ _ B2 H1)|].
    refine (parents_in_moved _ _ _ _ _ B2 _ H3). apply moved_refl. destruct He as [[(Nn & _) _] _]. exact Nn. }
  rewrite R1. eexists. split; [reflexivity|]. split; [|exact R7]. split; [|exact R6]. split; [exact (moved_same l l1 l2 R2 R4 R5 B2)|]. intro Es. exact (moved_data_same l l1 l2 R2 R3 (B4 Es)).
Qed.
End Order.
