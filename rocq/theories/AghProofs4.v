(** What complementTopo leaves behind, and what the reads return. *)
From Verif Require Import Prelude AgridModel AgridSpec AgridProofs AghModel AghSpec AghProofs AghProofs2 AghProofs3.
Open Scope nat_scope.

Section Reads.
Variables (T C : list Z) (dim n : nat) (V : Type) (zero bg : V).
Hypothesis K : params_ok T C dim n.
Local Notation key := (coord_to_key T C).
Local Notation hoff := (hoff T C).
Local Notation toff := (toff T C).
Local Notation hpos := (hpos T C dim).
Local Notation hsz := (hsz T C dim).
Local Notation tsz := (tsz T dim).
Local Notation level := (level V).
Local Notation keys := (keys V).
Local Notation grid := (grid V).
Local Notation vmask := (vmask V).
Local Notation cmask := (cmask V).
Local Notation choff := (choff V).
Local Notation lev := (lev V).
Local Notation linked' := (linked' T C dim V).
Local Notation keys_ok := (keys_ok T C dim V).
Local Notation Blocks := (Blocks T C V).

Lemma chain_lev (P : nat -> level -> level -> Prop) g : chain V P g -> forall i l lc, lev g (S i) = Some l -> lev g i = Some lc -> P (S i) l lc.
Proof.
  induction g as [|a r IH]; intros H i l lc E1 E2; [apply (lev_lt V) in E1; cbn in E1; lia|]. cbn [chain] in H. destruct H as [H1 H2].
  pose proof (lev_lt V _ _ _ E1) as L. cbn in L. destruct (Nat.eq_dec (S i) (length r)) as [Eq|Ne].
  - rewrite Eq, (lev_top V) in E1. injection E1 as <-. rewrite (lev_low V) in E2 by lia. destruct r as [|b r]; [discriminate|]. cbn in Eq. injection Eq as ->. rewrite (lev_top V) in E2. injection E2 as <-. exact H1.
  - rewrite (lev_low V) in E1 by lia. rewrite (lev_low V) in E2 by lia. eauto.
Qed.

Definition cells_ok (i : nat) (l : level) : Prop :=
  forall p k, nth_error (keys l) p = Some k -> exists t m, nth_error (grid l) p = Some t /\ nth_error (elts (vmask l)) p = Some m /\ length t = tsz i /\ length m = tsz i.

Lemma cell_some i l c p : i < n -> length c = dim -> cells_ok i l -> nth_error (keys l) p = Some (key i c) ->
  exists q t m v b, coord_to_tile_offset T C i c = Some (Z.of_nat q) /\ nth_error (grid l) p = Some t /\ nth_error (elts (vmask l)) p = Some m /\ nth_error t q = Some v /\ nth_error m q = Some b /\
    cell T C V i l c p = Some (v, b).
Proof.
  intros Hi Hc H Hp. destruct (H p _ Hp) as (t & m & A & B & D & E). destruct (toff_ok T C dim n K i c Hi Hc) as (q & Q1 & Q2 & Q3).
  destruct (nth_error_lt_some t q) as [v Ev]; [lia|]. destruct (nth_error_lt_some m q) as [b Eb]; [lia|]. exists q, t, m, v, b. unfold cell. rewrite Q1, A, B, Ev, Eb. auto 10.
Qed.

(** one step down *)
Lemma child_step ordered l lc i c p : S i < n -> length c = dim -> keys_ok (S i) l -> keys_ok i lc ->
  linked' (S i) l lc -> nth_error (keys l) p = Some (key (S i) c) ->
  (~ In (key i c) (keys lc) /\ child_of T C V ordered l (S i) c p = Some None) \/
  (exists q, nth_error (keys lc) q = Some (key i c) /\ (child_of T C V ordered l (S i) c p = Some (Some (Some q)) \/ child_of T C V ordered l (S i) c p = Some (Some None))).
Proof.
  intros Hn Hc Kl Kc (Mr & Pi & Pl) Hp.
  destruct (hoff_ok T C dim n K (S i) c Hn Hc) as (q & Q1 & Q2). destruct (child_pos T C dim n K i c q Hn Hc Q1) as (d & D1 & D2).
  destruct (Mr p _ Hp) as (m & M1 & M2 & M3). destruct (M3 q d Q2 D1) as (b & B1 & B2). rewrite D2 in B2. unfold child_of. rewrite Q1, M1, B1.
  destruct b.
  - right. destruct (Pl p _ m q d Hp M1 B1 D1) as (o & O1 & O2). rewrite D2 in O2. exists (o + count_offset m q). split; [exact O2|]. rewrite O1. destruct ordered; auto.
  - left. split; [|reflexivity]. intro X. apply B2 in X. discriminate.
Qed.

Lemma closed_up g c i j li lj : length g <= n -> chain V linked' g -> j <= i -> lev g j = Some lj -> lev g i = Some li -> In (key j c) (keys lj) -> In (key i c) (keys li).
Proof.
  intros Lg Hch Hj Ej. revert li. induction i as [|i IH]; intros li Ei H.
  - assert (j = 0) by lia. subst j. rewrite Ei in Ej. injection Ej as <-. exact H.
  - destruct (Nat.eq_dec j (S i)) as [->|Ne]; [rewrite Ei in Ej; injection Ej as <-; exact H|].
    pose proof (lev_lt V _ _ _ Ei) as L. destruct (lev_some V g i) as [lm Em]; [lia|]. specialize (IH ltac:(lia) lm Em H).
    pose proof (chain_lev _ _ Hch i li lm Ei Em) as (_ & Pi & _). specialize (Pi _ IH). rewrite (key_key T C dim n K) in Pi by lia. exact Pi.
Qed.

Lemma probe_fin ordered g : forall c b l rest p, g = l :: rest -> length g <= n -> length c = dim -> each V keys_ok g -> chain V linked' g ->
  nth_error (keys l) p = Some (key (length rest) c) -> (b = Some p \/ b = None) ->
  exists j lj p', j <= length rest /\ lev g j = Some lj /\ nth_error (keys lj) p' = Some (key j c) /\
    (forall j' l', j' < j -> lev g j' = Some l' -> ~ In (key j' c) (keys l')) /\
    probe T C V bg ordered g c b = cell T C V j lj c p' /\ value_level T C V ordered g c b = Some j.
Proof.
  induction g as [|l0 rest0 IH]; intros c b l rest p E Lg Hc He Hch Hp Hb; [discriminate|]. injection E as -> ->.
  destruct He as [Kl He]. cbn [chain] in Hch. destruct Hch as [Hl Hch]. cbn [probe value_level].
  assert (Eb : block_of T C V l (length rest) c b = Some p) by (destruct Hb as [-> | ->]; cbn; [reflexivity|exact (query_nth _ _ _ (proj1 Kl) Hp)]). rewrite Eb.
  destruct rest as [|lc rest'].
  - exists 0, l, p. split; [lia|]. split; [apply (lev_top V)|]. split; [exact Hp|]. split; [intros; lia|]. auto.
  - cbn [length] in *. pose proof (proj1 He) as Kc.
    destruct (child_step ordered l lc (length rest') c p ltac:(lia) Hc Kl Kc Hl Hp) as [[N1 N2]|(q & Q1 & Q2)].
    + rewrite N2. exists (S (length rest')), l, p. split; [lia|]. split; [apply (lev_top V l (lc :: rest'))|]. split; [exact Hp|]. split; [|auto].
      intros j' l' Hj El X. apply N1. rewrite (lev_low V) in El by (cbn; lia).
      eapply (closed_up (lc :: rest') c (length rest') j' lc l'); [cbn; lia|exact Hch|lia|exact El|apply (lev_top V)|exact X].
    + destruct (IH c (match child_of T C V ordered l (S (length rest')) c p with Some (Some x) => x | _ => None end) lc rest' q eq_refl ltac:(cbn; lia) Hc He Hch Q1) as (j & lj & p' & A1 & A2 & A3 & A4 & A5 & A6).
      { destruct Q2 as [-> | ->]; auto. }
      exists j, lj, p'. split; [lia|]. split; [rewrite (lev_low V) by (cbn; lia); exact A2|]. split; [exact A3|]. split.
      { intros j' l' Hj El. rewrite (lev_low V) in El by (cbn; lia). eauto. }
      destruct Q2 as [Q2|Q2]; rewrite Q2 in A5, A6 |- *; auto.
Qed.

Lemma oblivious_fin g : forall c, length g <= n -> 0 < length g -> length c = dim -> each V keys_ok g -> each V cells_ok g -> chain V linked' g ->
  (forall i l lc p m q, lev g (S i) = Some l -> lev g i = Some lc -> nth_error (keys l) p = Some (key (S i) c) -> nth_error (elts (vmask l)) p = Some m ->
     toff (S i) c = Some q -> nth_error m q = Some true -> ~ In (key i c) (keys lc)) ->
  exists v v' on, probe T C V bg false g c None = Some (v, on) /\ oblivious T C V bg g c = Some (v', on) /\ (on = true -> v' = v).
Proof.
  induction g as [|l rest IH]; intros c Lg L0 Hc He Hce Hch X; [cbn in L0; lia|]. destruct He as [Kl He]. destruct Hce as [Cl Hce]. cbn [chain] in Hch. destruct Hch as [Hl Hch].
  cbn [probe oblivious block_of]. destruct (query (keys l) (key (length rest) c)) as [p|] eqn:Ep; [|exists bg, bg, false; auto]. apply query_some in Ep.
  cbn [length] in Lg. destruct (cell_some (length rest) l c p ltac:(lia) Hc Cl Ep) as (q & t & m & v & on & T1 & T2 & T3 & T4 & T5 & T6). rewrite T6.
  destruct rest as [|lc rest']; [exists v, v, on; auto|]. cbn [length] in *.
  assert (Tq : toff (S (length rest')) c = Some q) by (unfold AghModel.toff; rewrite T1; cbn; f_equal; lia).
  destruct (child_step false l lc (length rest') c p ltac:(lia) Hc Kl (proj1 He) Hl Ep) as [[N1 N2]|(r & Q1 & Q2)].
  - rewrite N2. destruct on; [exists v, v, true; auto|]. cbn [oblivious]. rewrite (proj2 (query_none _ _) N1). exists v, bg, false. split; [reflexivity|]. split; [reflexivity|discriminate].
  - assert (Eo : on = false).
    { destruct on; [|reflexivity]. exfalso. refine (X (length rest') l lc p m q _ _ Ep T3 Tq T5 _); [apply (lev_top V l (lc :: rest'))|rewrite (lev_low V) by (cbn; lia); apply (lev_top V)|eapply nth_error_In; exact Q1]. }
    subst on. assert (Ec : child_of T C V false l (S (length rest')) c p = Some (Some None)).
    { destruct Q2 as [Q2|Q2]; [|exact Q2]. exfalso. unfold child_of in Q2. destruct (hoff (S (length rest')) c); [|discriminate]. destruct (nth_error (elts (cmask l)) p); [|discriminate]. destruct (nth_error l0 n0) as [[|]|]; discriminate. }
    rewrite Ec. apply IH; try assumption; try lia. intros i a b p0 m0 q0 E1 E2. pose proof (lev_lt V _ _ _ E1) as La. cbn [length] in La. apply X; rewrite (lev_low V) by (cbn; lia); assumption.
Qed.

(** all of complementTopo *)
Section Whole.
Variables (g : list level) (sched : nat -> list coord -> list coord) (top : list level -> list nat) (sortg : bool).
Hypothesis Hn : length g = n.
Hypothesis Hok : grid_ok T C dim V g.
Hypothesis Ho : orders_ok V sched top.

Lemma spawn_linked g0 g1 : chain V (spawn T C dim V g0) g1 -> chain V (linked T C dim V) g1.
Proof.
  induction g1 as [|l r IH]; cbn [chain]; [tauto|]. intros [A B]. split; [|auto]. destruct r as [|lc r]; [exact I|]. destruct A as [A1 A2]. split; [exact A1|]. intros k Hk. apply A2. right. eauto.
Qed.
Lemma ready_each g1 : each V (level_ok T C dim V) g1 -> each2 V (comp_rel T dim V zero sched) g g1 -> each V (ready T C dim V sortg) g1.
Proof.
  intros H1 H2. apply (each_lev V). intros i l E. pose proof (proj1 (each_lev V _ _) H1 i l E) as (N & F & G1 & G2 & V1 & V2 & C1 & Cv & Cc).
  split; [repeat split; auto; lia|]. split; [split; assumption|]. intro Hi. pose proof (lev_lt V _ _ _ E) as L. rewrite <- (each2_length V _ _ _ H2) in L.
  destruct (lev_some V g i L) as [l0 E0]. pose proof (each2_lev V _ _ _ H2 i l0 l E0 E) as R. destruct i; [lia|]. destruct R as [_ R]. lia.
Qed.

Lemma whole : exists g1 h, complement_up T C dim V zero sched g = Some g1 /\ complement_topo T C dim V zero sortg sched top g = Some h /\
  each V (level_ok T C dim V) g1 /\ each2 V (comp_rel T dim V zero sched) g g1 /\ chain V (spawn T C dim V g) g1 /\
  each2 V (kept V sortg) g1 h /\ chain V linked' h /\ length g1 = length g /\ length h = length g.
Proof.
  destruct Hok as (L2 & Hp & Hl). destruct Ho as [O1 O2].
  destruct (complement_up_ok T C dim n V zero K sched g O1 ltac:(lia)) as (g1 & A1 & A2 & A3 & A4); [apply (each_lev V); exact Hl|].
  pose proof (each2_length V _ _ _ A3) as Lg. destruct g1 as [|l rest]; [cbn in Lg; lia|].
  destruct (reorder_ok T C dim n V K sortg (top (l :: rest)) l rest) as (h & R1 & R2 & R3); [cbn in Lg; lia|apply (ready_each (l :: rest)); assumption|exact (spawn_linked _ _ A4)|apply O2|].
  exists (l :: rest), h. pose proof (each2_length V _ _ _ R2) as Lh. unfold complement_topo. rewrite A1. split; [reflexivity|]. repeat (split; [assumption|]). split; [lia|lia].
Qed.

Lemma g1_keys g1 : each2 V (comp_rel T dim V zero sched) g g1 -> chain V (spawn T C dim V g) g1 -> length g1 = length g ->
  forall i k, has_key V g1 i k <-> Blocks g i k.
Proof.
  intros A3 A4 L1. induction i as [|i IH]; intro k.
  - split.
    + intros (l & E & H). apply B_own. pose proof (lev_lt V _ _ _ E) as L. destruct (lev_some V g 0) as [l0 E0]; [lia|]. pose proof (each2_lev V _ _ _ A3 0 l0 l E0 E) as R. cbn in R. subst l0. exists l. auto.
    + intro H. inversion H as [? ? (l & E & H')|]; subst. pose proof (lev_lt V _ _ _ E) as L. destruct (lev_some V g1 0) as [l1 E1]; [lia|]. pose proof (each2_lev V _ _ _ A3 0 l l1 E E1) as R. cbn in R. subst l1. exists l. auto.
  - split.
    + intros (l & E & H). pose proof (lev_lt V _ _ _ E) as L. destruct (lev_some V g1 i) as [lc Ec]; [lia|]. destruct (chain_lev _ _ A4 i l lc E Ec) as [_ S]. apply S in H.
      destruct H as [H|(ck & H & ->)]; [apply B_own; exact H|]. apply B_parent; [|lia]. apply IH. exists lc. auto.
    + intro H. assert (L : S i < length g) by (inversion H as [? ? (l & E & _)|]; subst; [apply (lev_lt V) in E; exact E|assumption]).
      destruct (lev_some V g1 (S i)) as [l El]; [lia|]. destruct (lev_some V g1 i) as [lc Ec]; [lia|]. destruct (chain_lev _ _ A4 i l lc El Ec) as [_ S]. exists l. split; [exact El|]. apply S.
      inversion H as [|? k' H' _]; subst; [left; assumption|]. right. apply IH in H'. destruct H' as (lc' & E' & H'). rewrite Ec in E'. injection E' as <-. eauto.
Qed.
Lemma kept_keys s g1 h : each2 V (kept V s) g1 h -> forall i k, has_key V h i k <-> has_key V g1 i k.
Proof.
  intros R i k. pose proof (each2_length V _ _ _ R) as L. split; intros (l & E & H); pose proof (lev_lt V _ _ _ E) as Ll.
  - destruct (lev_some V g1 i) as [l1 E1]; [lia|]. destruct (each2_lev V _ _ _ R i l1 l E1 E) as [(_ & _ & I & _) _]. exists l1. split; [exact E1|]. apply I. exact H.
  - destruct (lev_some V h i) as [l1 E1]; [lia|]. destruct (each2_lev V _ _ _ R i l l1 E E1) as [(_ & _ & I & _) _]. exists l1. split; [exact E1|]. apply I. exact H.
Qed.
Lemma g1_stored g1 : each V (level_ok T C dim V) g1 -> each2 V (comp_rel T dim V zero sched) g g1 ->
  forall i k t m, stored V g1 i k t m <-> stored V g i k t m \/ (has_key V g1 i k /\ ~ has_key V g i k /\ t = repeat zero (tsz i) /\ m = repeat false (tsz i)).
Proof.
  intros A2 A3 i k t m. pose proof (each2_length V _ _ _ A3) as L. destruct Hok as (_ & _ & Hl). split.
  - intros (l & p & E & Hk & Ht & Hm). pose proof (lev_lt V _ _ _ E) as Li. destruct (lev_some V g i) as [l0 E0]; [lia|]. pose proof (each2_lev V _ _ _ A3 i l0 l E0 E) as R.
    destruct i as [|i]; cbn in R; [subst l; left; exists l0, p; auto|]. destruct R as [(tl & R1 & R2 & R3) _].
    pose proof (Hl _ _ E0) as (N & F & G1 & G2 & V1 & V2 & C1 & _). pose proof (proj1 (each_lev V _ _) A2 _ _ E) as (N' & _).
    destruct (Nat.lt_ge_cases p (length (keys l0))) as [Lp|Lp].
    + left. exists l0, p. rewrite R1, nth_error_app1 in Hk by lia. rewrite R2, nth_error_app1 in Ht by lia. rewrite R3, nth_error_app1 in Hm by lia. auto.
    + right. split; [exists l; split; [exact E|]; eapply nth_error_In; exact Hk|]. split.
      * intros (l1 & E1 & H1). rewrite E0 in E1. injection E1 as <-. apply In_nth_error in H1. destruct H1 as [q Hq]. pose proof (nth_error_some_lt _ _ _ Hq).
        assert (nth_error (keys l) q = Some k) by (rewrite R1, nth_error_app1 by lia; exact Hq).
        assert (p = q); [|lia]. eapply (proj1 (NoDup_nth_error (keys l))); [exact N'|apply nth_error_some_lt in Hk; exact Hk|congruence].
      * rewrite R2, nth_error_app2 in Ht by lia. rewrite R3, nth_error_app2 in Hm by lia. apply nth_error_In in Ht, Hm. apply repeat_spec in Ht, Hm. auto.
  - intros [(l & p & E & Hk & Ht & Hm)|((l & E & H) & Nk & -> & ->)].
    + pose proof (lev_lt V _ _ _ E) as Li. destruct (lev_some V g1 i) as [l1 E1]; [lia|]. pose proof (each2_lev V _ _ _ A3 i l l1 E E1) as R. exists l1, p. split; [exact E1|].
      destruct i as [|i]; cbn in R; [subst l1; auto|]. destruct R as [(tl & R1 & R2 & R3) _]. rewrite R1, R2, R3. rewrite !nth_error_app1 by (eapply nth_error_some_lt; eassumption). auto.
    + pose proof (lev_lt V _ _ _ E) as Li. destruct (lev_some V g i) as [l0 E0]; [lia|]. pose proof (each2_lev V _ _ _ A3 i l0 l E0 E) as R. destruct i as [|i]; cbn in R.
      * subst l. elim Nk. exists l0. auto.
      * destruct R as [(tl & R1 & R2 & R3) _]. apply In_nth_error in H. destruct H as [p Hp]. exists l, p. split; [exact E|]. split; [exact Hp|].
        pose proof (Hl _ _ E0) as (N & F & G1 & G2 & V1 & V2 & C1 & _). pose proof (nth_error_some_lt _ _ _ Hp) as Lp. rewrite R1, app_length in Lp.
        assert (Ge : length (keys l0) <= p).
        { destruct (Nat.lt_ge_cases p (length (keys l0))) as [Lt|Ge]; [|exact Ge]. elim Nk. exists l0. split; [exact E0|]. rewrite R1, nth_error_app1 in Hp by exact Lt. eapply nth_error_In; exact Hp. }
        rewrite R2, R3. rewrite !nth_error_app2 by lia. split; (rewrite nth_error_repeat by lia; reflexivity).
Qed.
Lemma kept_stored g1 h : each V (level_ok T C dim V) g1 -> each2 V (kept V true) g1 h -> forall i k t m, stored V h i k t m <-> stored V g1 i k t m.
Proof.
  intros A2 R i k t m. pose proof (each2_length V _ _ _ R) as L. split; intros (l & p & E & Hk & Ht & Hm); pose proof (lev_lt V _ _ _ E) as Ll.
  - destruct (lev_some V g1 i) as [l1 E1]; [lia|]. destruct (each2_lev V _ _ _ R i l1 l E1 E) as [(_ & _ & I & M) D]. destruct (M p k Hk) as (q & Q1 & Q2 & _). exists l1, q.
    split; [exact E1|]. split; [exact Q1|]. rewrite <- (D eq_refl p q k Hk Q1), <- Q2. auto.
  - destruct (lev_some V h i) as [l1 E1]; [lia|]. destruct (each2_lev V _ _ _ R i l l1 E E1) as [(_ & _ & I & M) D].
    assert (X : In k (keys l1)) by (apply I; eapply nth_error_In; exact Hk). apply In_nth_error in X. destruct X as [q Hq]. destruct (M q k Hq) as (p' & Q1 & Q2 & _).
    assert (p' = p). { eapply (proj1 (NoDup_nth_error (keys l))); [exact (proj1 (proj1 (each_lev V _ _) A2 _ _ E))|apply nth_error_some_lt in Q1; exact Q1|congruence]. } subst p'.
    exists l1, q. split; [exact E1|]. split; [exact Hq|]. rewrite (D eq_refl q p k Hq Hk), Q2. auto.
Qed.
Lemma kept_keys_ok s g1 h : each V (level_ok T C dim V) g1 -> each2 V (kept V s) g1 h -> each V keys_ok h.
Proof.
  intros A2 R. apply (each_lev V). intros i l E. pose proof (each2_length V _ _ _ R) as L. pose proof (lev_lt V _ _ _ E). destruct (lev_some V g1 i) as [l1 E1]; [lia|].
  destruct (each2_lev V _ _ _ R i l1 l E1 E) as [M _]. pose proof (proj1 (each_lev V _ _) A2 _ _ E1) as (N & F & _). apply (keys_ok_moved T C dim V i l1 l M). split; assumption.
Qed.
Lemma kept_cells g1 h : each V (level_ok T C dim V) g1 -> each2 V (kept V true) g1 h -> each V cells_ok h.
Proof.
  intros A2 R. apply (each_lev V). intros i l E p k Hp. pose proof (each2_length V _ _ _ R) as L. pose proof (lev_lt V _ _ _ E). destruct (lev_some V g1 i) as [l1 E1]; [lia|].
  destruct (each2_lev V _ _ _ R i l1 l E1 E) as [(_ & _ & _ & M) D]. destruct (M p k Hp) as (q & Q1 & Q2 & _). pose proof (nth_error_some_lt _ _ _ Q1) as Lq.
  pose proof (proj1 (each_lev V _ _) A2 _ _ E1) as (N & F & G1 & G2 & V1 & V2 & _). destruct (nth_error_lt_some (grid l1) q) as [t Et]; [lia|]. destruct (nth_error_lt_some (elts (vmask l1)) q) as [m Em]; [lia|].
  exists t, m. rewrite (D eq_refl p q k Hp Q1), Q2. split; [exact Et|]. split; [exact Em|]. split; [exact (proj1 (Forall_forall _ _) G2 t (nth_error_In _ _ Et))|exact (proj1 (Forall_forall _ _) V2 m (nth_error_In _ _ Em))].
Qed.
Lemma stored_unique i k t m t' m' : stored V g i k t m -> stored V g i k t' m' -> t = t' /\ m = m'.
Proof.
  intros (l & p & E & A & B & D) (l' & p' & E' & A' & B' & D'). rewrite E in E'. injection E' as <-. destruct Hok as (_ & _ & Hl). pose proof (Hl _ _ E) as (N & _).
  assert (p = p') by (eapply (proj1 (NoDup_nth_error (keys l))); [exact N|apply nth_error_some_lt in A; exact A|congruence]). subst p'. split; congruence.
Qed.
Lemma finest_unique c i j : finest T C V g c i -> finest T C V g c j -> i = j.
Proof. intros [A1 A2] [B1 B2]. destruct (Nat.lt_trichotomy i j) as [H|[H|H]]; [elim (B2 i H A1)|exact H|elim (A2 j H B1)]. Qed.
Lemma reads_unique c v b v' b' : Reads T C V zero bg g c v b -> Reads T C V zero bg g c v' b' -> v = v' /\ b = b'.
Proof.
  intros H H'. inversion H as [N|i t m q v0 b0 F S O A B|i F N]; subst; inversion H' as [N'|i' t' m' q' v1 b1 F' S' O' A' B'|i' F' N']; subst; auto.
  - elim (N _ (proj1 F')).
  - elim (N _ (proj1 F')).
  - elim (N' _ (proj1 F)).
  - pose proof (finest_unique c i i' F F'). subst i'. destruct (stored_unique _ _ _ _ _ _ S S') as [<- <-]. rewrite O in O'. injection O' as O'. assert (q = q') by lia. subst q'. split; congruence.
  - pose proof (finest_unique c i i' F F'). subst i'. elim N'. destruct S as (l & p & E & X & _). exists l. split; [exact E|eapply nth_error_In; exact X].
  - elim (N' _ (proj1 F)).
  - pose proof (finest_unique c i i' F F'). subst i'. elim N. destruct S' as (l & p & E & X & _). exists l. split; [exact E|eapply nth_error_In; exact X].
Qed.
Lemma blocks_lt i k : Blocks g i k -> i < length g.
Proof. intro H. inversion H as [? ? (l & E & _)|]; subst; [exact (lev_lt V _ _ _ E)|assumption]. Qed.
Lemma blocks_up c i j : i <= j < length g -> Blocks g i (key i c) -> Blocks g j (key j c).
Proof.
  intros [H1 H2] B. induction j as [|j IH]; [replace i with 0 in B by lia; exact B|]. destruct (Nat.eq_dec i (S j)) as [->|Ne]; [exact B|].
  specialize (IH ltac:(lia) ltac:(lia)). rewrite <- (key_key T C dim n K j (S j) c) by lia. apply B_parent; [exact IH|exact H2].
Qed.

(** the reads of the result *)
Lemma reads_whole g1 h c : each V (level_ok T C dim V) g1 -> each2 V (comp_rel T dim V zero sched) g g1 -> chain V (spawn T C dim V g) g1 ->
  each2 V (kept V true) g1 h -> chain V linked' h -> length g1 = length g -> length h = length g -> length c = dim ->
  exists v b, Reads T C V zero bg g c v b /\ (forall ordered, probe T C V bg ordered h c None = Some (v, b)).
Proof.
  intros A2 A3 A4 R Hch L1 Lh Hc. pose proof (kept_keys_ok _ _ _ A2 R) as Ko. pose proof (kept_cells _ _ A2 R) as Ce.
  assert (Hk : forall i k, has_key V h i k <-> Blocks g i k) by (intros; rewrite (kept_keys _ _ _ R); apply (g1_keys _ A3 A4 L1)).
  destruct Hok as (L2 & _ & _). destruct h as [|l rest]; [cbn in Lh; lia|]. set (i := length rest) in *.
  destruct (query (keys l) (key i c)) as [p|] eqn:Ep.
  - apply query_some in Ep.
    destruct (probe_fin true (l :: rest) c None l rest p eq_refl ltac:(lia) Hc Ko Hch Ep (or_intror eq_refl)) as (j & lj & p' & J1 & J2 & J3 & J4 & J5 & J6).
    pose proof (lev_lt V _ _ _ J2) as Lj. destruct (cell_some j lj c p' ltac:(lia) Hc (proj1 (each_lev V _ _) Ce _ _ J2) J3) as (q & t & m & v & b & T1 & T2 & T3 & T4 & T5 & T6).
    exists v, b. split.
    + assert (Fj : finest T C V g c j).
      { split; [apply Hk; exists lj; split; [exact J2|eapply nth_error_In; exact J3]|]. intros j' Hj X. apply Hk in X. destruct X as (l' & E' & X). exact (J4 j' l' Hj E' X). }
      assert (St : stored V (l :: rest) j (key j c) t m) by (exists lj, p'; auto). apply (kept_stored g1 (l :: rest) A2 R) in St. apply (g1_stored g1 A2 A3) in St.
      destruct St as [St|(_ & Nk & -> & ->)]; [exact (R_own T C V zero bg g c j t m q v b Fj St T1 T4 T5)|].
      apply nth_error_In in T4, T5. apply repeat_spec in T4, T5. subst v b. exact (R_added T C V zero bg g c j Fj Nk).
    + intro ordered. destruct ordered; [rewrite J5; exact T6|].
      destruct (probe_fin false (l :: rest) c None l rest p eq_refl ltac:(lia) Hc Ko Hch Ep (or_intror eq_refl)) as (j2 & lj2 & p2 & K1 & K2 & K3 & K4 & K5 & K6). rewrite K5.
      assert (j2 = j). { destruct (Nat.lt_trichotomy j j2) as [H|[H|H]]; [elim (K4 j lj H J2); eapply nth_error_In; exact J3|auto|elim (J4 j2 lj2 H K2); eapply nth_error_In; exact K3]. }
      subst j2. rewrite J2 in K2. injection K2 as <-. pose proof (proj1 (proj1 (each_lev V _ _) Ko _ _ J2)) as Nd.
      assert (p2 = p') by (eapply (proj1 (NoDup_nth_error (keys lj))); [exact Nd|apply nth_error_some_lt in K3; exact K3|congruence]). subst p2. exact T6.
  - exists bg, false. split.
    + apply R_background. intros j X. pose proof (blocks_lt _ _ X) as Lj. apply (blocks_up c j i) in X; [|split; unfold i; cbn [length] in Lh; lia]. apply Hk in X. destruct X as (l' & E' & X).
      unfold i in E'. rewrite (lev_top V) in E'. injection E' as <-. apply query_none in Ep. contradiction.
    + intro ordered. cbn [probe block_of]. fold i. rewrite Ep. reflexivity.
Qed.
Lemma level_whole g1 h c : each V (level_ok T C dim V) g1 -> each2 V (comp_rel T dim V zero sched) g g1 -> chain V (spawn T C dim V g) g1 ->
  each2 V (kept V sortg) g1 h -> chain V linked' h -> length g1 = length g -> length h = length g -> length c = dim ->
  forall ordered i, finest T C V g c i \/ ((forall j, ~ Blocks g j (key j c)) /\ S i = length g) -> value_level T C V ordered h c None = Some i.
Proof.
  intros A2 A3 A4 R Hch L1 Lh Hc ordered i0. pose proof (kept_keys_ok _ _ _ A2 R) as Ko.
  assert (Hk : forall i k, has_key V h i k <-> Blocks g i k) by (intros; rewrite (kept_keys _ _ _ R); apply (g1_keys _ A3 A4 L1)).
  destruct Hok as (L2 & _ & _). destruct h as [|l rest]; [cbn in Lh; lia|]. set (i := length rest) in *.
  destruct (query (keys l) (key i c)) as [p|] eqn:Ep.
  - apply query_some in Ep.
    destruct (probe_fin ordered (l :: rest) c None l rest p eq_refl ltac:(lia) Hc Ko Hch Ep (or_intror eq_refl)) as (j & lj & p' & J1 & J2 & J3 & J4 & J5 & J6). rewrite J6.
    assert (Fj : finest T C V g c j).
    { split; [apply Hk; exists lj; split; [exact J2|eapply nth_error_In; exact J3]|]. intros j' Hj X. apply Hk in X. destruct X as (l' & E' & X). exact (J4 j' l' Hj E' X). }
    intros [F|[N _]]; [rewrite (finest_unique c j i0 Fj F); reflexivity|elim (N j (proj1 Fj))].
  - intros [F|[_ E]].
    + exfalso. pose proof (blocks_lt _ _ (proj1 F)) as Lj. pose proof (blocks_up c i0 i ltac:(unfold i; cbn [length] in Lh; lia) (proj1 F)) as X. apply Hk in X. destruct X as (l' & E' & X).
      unfold i in E'. rewrite (lev_top V) in E'. injection E' as <-. apply query_none in Ep. contradiction.
    + cbn [value_level block_of]. fold i. rewrite Ep. f_equal. unfold i. cbn [length] in Lh. lia.
Qed.
End Whole.
End Reads.
