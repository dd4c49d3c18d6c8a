(** The whole build. *)
From Verif Require Import Prelude BvhModel BvhSpec BvhBits BvhTopo BvhTree BvhFacts BvhBuild.
Open Scope Z_scope.

Section Whole.
Variables mcs inds : list Z.
Notation n := (BvhModel.n mcs).
Hypothesis big : 1 < n.
Hypothesis rng : forall i, 0 <= i < n -> 0 <= cf mcs i < 2 ^ 32.
Hypothesis srt : forall i j, 0 <= i -> i <= j -> j < n -> cf mcs i <= cf mcs j.
Hypothesis leni : length inds = length mcs.
Variable T : ktree.
Hypothesis sh : shape mcs false 0 (n - 1) T.
Notation L := (BvhFacts.L mcs T).
Notation root := (BvhFacts.root mcs T).
Notation depth := (BvhFacts.depth T).
Notation off := (BvhFacts.off T).
Notation St := (BvhBuild.St mcs inds T).

Definition built (m : mem) : Prop := forall b, In b L ->
  m Levels (nB b) = Some (kspine (nt b)) /\ m Parents (nB b) = Some (nppos b) /\
  (ni b < nj b -> m Aux (nB b) = Some (nesc b)) /\
  (ni b = nj b -> m Aux (nB b) = at_ inds (ni b) /\ m LInds (ni b) = Some (nB b)).

Lemma St_val D P m a x v : St D P m -> D a x -> a <> TLcs -> a <> TRcs -> G mcs inds T a x v -> m a x = Some v.
Proof.
  intros [A B C] Hd N1 N2 Hg. destruct (m a x) as [w|] eqn:E; [|destruct (B a x Hd E)]. f_equal. eapply (G_fun mcs inds leni T sh a x); eauto. apply A; [|exact E]. intros ->. exact Hg.
Qed.
Lemma build_ok o1 o2 o3 o4 o5 : Permutation o1 (zr 0 n) -> Permutation o2 (zr 0 (n - 1)) -> Permutation o3 (zr 0 n) -> Permutation o4 (zr 0 n) -> Permutation o5 (zr 0 (n - 1)) ->
  runs (build mcs inds o1 o2 o3 o4 o5) empty (fun _ m => built m).
Proof.
  intros Q1 Q2 Q3 Q4 Q5. unfold build.
  assert (I1 : forall o x b, Permutation o (zr 0 b) -> (In x o <-> 0 <= x < b)).
  { intros o x b Q. split; intro H; [apply zr_in; eapply Permutation_in; eauto|eapply Permutation_in; [symmetry; exact Q|apply zr_in; exact H]]. }
  apply runs_bind. eapply runs_mono; [eapply (launch_ok mcs inds T _ (fun _ _ => False) out1 (P1 mcs) o1)|].
  - intros done idx D m H1 H2 _ ND HS. eapply k1_ok; eauto; [apply (I1 _ _ _ Q1); exact H1|intros x Hx; apply (I1 _ _ _ Q1); auto].
  - intros idx y [X _]. discriminate.
  - auto.
  - constructor; [intros; discriminate|intros a x []|]. split; [intros x []|intros []].
  - intros u m HS. cbv beta in HS. clear u. eapply St_mono with (Q := P2 mcs []) (D' := fun a x => a = PInds /\ 0 <= x < n) in HS.
    2: { intros a x [-> X]. right. exists x. split; [apply (I1 _ _ _ Q1); exact X|split; reflexivity]. }
    2: { intros f [A B]. split; [intros k Hk; cbn [filter length]; apply A, (I1 _ _ _ Q1), Hk|apply B, (I1 _ _ _ Q1); lia]. }
    apply runs_bind. eapply runs_mono; [eapply (launch_ok mcs inds T _ _ (out2 mcs T) (P2 mcs) o2); [| | |exact HS]|].
    + intros done idx D m' H1 H2 _ ND HS'. eapply k2_ok; eauto. apply (I1 _ _ _ Q2). exact H1.
    + intros idx y [[[X|X] _]|[[X _]|(b & c & _ & _ & _ & _ & _ & [[X _]|[X _]])]]; discriminate.
    + intros y [X _]. discriminate.
    + clear m HS. intros u m HS. cbv beta in HS. clear u.
      eapply St_mono with (Q := P3 mcs T) (D' := fun a x => (a = PInds /\ 0 <= x < n) \/ ((a = TRs \/ a = TPars) /\ exists c, In c L /\ ni c < nj c /\ x = nlab c) \/ (a = LPars /\ 0 <= x < n)) in HS.
      2: { intros a x [X|[(X & c & C1 & C2 & ->)|[-> X]]]; [left; exact X| |].
           - right. destruct (L_lab mcs big T sh c C1 C2) as [C3 C4]. destruct X as [->| ->].
             + exists (nlab c). split; [apply (I1 _ _ _ Q2), C3|]. left. auto.
             + destruct (L_kid mcs T sh c C1) as [->|(b & B1 & B2 & B3)].
               * exists 0. split; [apply (I1 _ _ _ Q2); lia|]. right. left. auto.
               * exists (nlab b). split; [apply (I1 _ _ _ Q2), (L_lab mcs big T sh b B1 B2)|]. right. right. exists b, c. repeat split; auto; apply B3.
           - right. destruct (has_leaf mcs T sh x X) as (c & C1 & C2 & C3). destruct (L_kid mcs T sh c C1) as [->|(b & B1 & B2 & B3)]; [cbn in C2, C3; lia|].
             exists (nlab b). split; [apply (I1 _ _ _ Q2), (L_lab mcs big T sh b B1 B2)|]. right. right. exists b, c. repeat split; auto; try apply B3. left. repeat split; lia. }
      2: { intros f [A B]. split; [intros k Hk; rewrite A by exact Hk; f_equal; apply (count_order mcs big rng srt T sh); exact Q2|exact B]. }
      apply runs_bind. eapply runs_mono; [eapply (scan_ok mcs inds big leni T sh (S (length mcs)) 0); [lia|unfold BvhModel.n; lia|exact HS]|].
      clear m HS. intros u m HS. cbv beta in HS. clear u.
      assert (N3 : need3 mcs T (fun a x => ((a = PInds /\ 0 <= x < n) \/ ((a = TRs \/ a = TPars) /\ exists c, In c L /\ ni c < nj c /\ x = nlab c) \/ (a = LPars /\ 0 <= x < n)) \/ (a = LOffsets /\ 0 <= x <= n))).
      { split; [auto|]. split; [auto|]. intros c C1 C2. left. right. left. split; [auto|]. exists c. auto. }
      set (D3 := fun a x => _) in N3. change (St D3 (P3 mcs T) m) in HS.
      apply runs_bind. eapply runs_mono; [eapply (launch_ok mcs inds T _ _ (out3 mcs T) (fun _ => P3 mcs T) o3); [| | |exact HS]|].
      * intros done idx D m' H1 H2 HD ND HS'. eapply k3_ok; eauto; [apply (I1 _ _ _ Q3), H1|]. destruct N3 as (A & B & C). split; [auto|]. split; auto.
      * intros idx y [[X _]|(b & c & _ & _ & _ & _ & _ & _ & [[X _]|[X _]])]; discriminate.
      * intros y X. unfold D3 in X. destruct X as [[[X _]|[[[X|X] _]|[X _]]]|[X _]]; discriminate.
      * clear m HS. intros u m HS. cbv beta in HS. clear u.
        set (D4 := fun a x => D3 a x \/ ((a = LLcas /\ 0 <= x < n) \/ (exists c, In c L /\ ni c < nj c /\ ((a = TDst /\ x = nlab c) \/ (a = Levels /\ x = nB c))))).
        eapply St_mono with (Q := P3 mcs T) (D' := D4) in HS; [| |auto].
        2: { intros a x [X|[[-> X]|(c & C1 & C2 & C3)]]; [left; exact X| |]; right.
             - exists x. split; [apply (I1 _ _ _ Q3), X|]. left. auto.
             - destruct (in_chain mcs T sh c C1 C2) as (b & B1 & B2 & B3 & B4). exists (ni b). pose proof (L_in mcs T sh b B1). split; [apply (I1 _ _ _ Q3); lia|]. right. exists b, c. repeat split; auto; lia. }
        assert (N4 : need4 mcs T D4).
        { destruct N3 as (A & B & C). split; [split; [intros x Hx; left; apply A, Hx|split; [intros x Hx; left; apply B, Hx|intros c H1 H2; left; apply C; auto]]|]. split.
          - intros x Hx. left. left. left. auto.
          - intros c H1 H2. right. right. exists c. auto. }
        apply runs_bind. eapply runs_mono; [eapply (launch_ok mcs inds T _ _ (out4 mcs T) (fun _ => P3 mcs T) o4); [| | |exact HS]|].
        -- intros done idx D m' H1 H2 HD ND HS'. eapply k4_ok; eauto; [apply (I1 _ _ _ Q4), H1|]. destruct N4 as ((A & B & C) & E & F). split; [split; [auto|split; auto]|]. split; auto.
        -- intros idx y (b & _ & _ & _ & [[_ [X|[X|X]]]|[_ X]]); discriminate.
        -- intros y [X|[[X _]|(c & _ & _ & [[X _]|[X _]])]]; try discriminate. unfold D3 in X. destruct X as [[[X _]|[[[X|X] _]|[X _]]]|[X _]]; discriminate.
        -- clear m HS. intros u m HS. cbv beta in HS. clear u.
           set (D5 := fun a x => D4 a x \/ exists idx, In idx o4 /\ out4 mcs T idx a x) in HS.
           assert (N5 : need5 mcs T D5).
           { destruct N4 as ((A & B & C) & E & F). split; [split; [split; [intros x Hx; left; apply A, Hx|split; [intros x Hx; left; apply B, Hx|intros c H1 H2; left; apply C; auto]]|split; [intros x Hx; left; apply E, Hx|intros c H1 H2; left; apply F; auto]]|].
             split; [intros x Hx; left; right; left; auto|intros c H1 H2; left; left; left; right; left; split; [auto|exists c; auto]]. }
           eapply runs_mono; [eapply (launch_ok mcs inds T _ _ (out5 mcs T) (fun _ => P3 mcs T) o5); [| | |exact HS]|].
           ++ intros done idx D m' H1 H2 HD ND HS'. eapply k5_ok; eauto; [apply (I1 _ _ _ Q5), H1|]. destruct N5 as (((A & B & C) & E & F) & H & I). split; [split; [split; [auto|split; auto]|split; auto]|split; auto].
           ++ intros idx y (b & _ & _ & _ & _ & [X|X]); discriminate.
           ++ intros y [[X|[[X _]|(c & _ & _ & [[X _]|[X _]])]]|(idx & _ & (b & _ & _ & _ & [[_ [X|[X|X]]]|[_ X]]))]; try discriminate. unfold D3 in X. destruct X as [[[X _]|[[[X|X] _]|[X _]]]|[X _]]; discriminate.
           ++ clear m HS. intros u m HS. cbv beta in HS. clear u. intros b Hb. pose proof (L_in mcs T sh b Hb) as (_ & R1 & R2 & R3 & _).
              set (D6 := fun a x => D5 a x \/ exists idx, In idx o5 /\ out5 mcs T idx a x) in HS.
              assert (LF : ni b = nj b -> forall a x, out4 mcs T (ni b) a x -> D6 a x).
              { intros E a x X. left. right. exists (ni b). split; [apply (I1 _ _ _ Q4); lia|exact X]. }
              assert (TR : ni b < nj b -> forall a x, out5 mcs T (nlab b) a x -> D6 a x).
              { intros E a x X. right. exists (nlab b). split; [apply (I1 _ _ _ Q5), (L_lab mcs big T sh b Hb E)|exact X]. }
              assert (CS : ni b = nj b \/ ni b < nj b) by lia.
              split; [|split; [|split]].
              ** eapply St_val; [exact HS| |discriminate|discriminate|exists b; auto]. destruct CS as [E|E]; [apply LF; [exact E|]; exists b; auto 10|]. left. left. right. right. exists b. auto.
              ** eapply St_val; [exact HS| |discriminate|discriminate|exists b; auto]. destruct CS as [E|E]; [apply LF; [exact E|]; exists b; auto 10|]. apply TR; [exact E|]. exists b. auto 10.
              ** intro E. eapply St_val; [exact HS| |discriminate|discriminate|exists b; auto]. apply TR; [exact E|]. exists b. auto 10.
              ** intro E. split.
                 --- assert (X : exists v, at_ inds (ni b) = Some v) by (unfold at_; replace (ni b <? 0) with false by lia; apply nth_error_lt_some; rewrite leni; unfold BvhModel.n in *; lia).
                     destruct X as [v X]. rewrite X. eapply St_val; [exact HS| |discriminate|discriminate|exists b; auto 10]. apply LF; [exact E|]. exists b. auto 10.
                 --- eapply St_val; [exact HS| |discriminate|discriminate|exists b; auto 10]. apply LF; [exact E|]. exists b. auto 10.
Qed.

(** the tree of the specification *)
Fixpoint conv (t : ktree) : tree := match t with KL i => Leaf (nth (Z.to_nat i) inds 0) | KN _ _ _ _ l r => Node (conv l) (conv r) end.
Lemma conv_size t : size (conv t) = ksize t.
Proof. induction t; cbn [conv size ksize]; congruence. Qed.
Lemma conv_spine t : spine (conv t) = kspine t.
Proof. induction t; cbn [conv spine kspine]; congruence. Qed.
Lemma conv_prims s i j t : shape mcs s i j t -> prims (conv t) = map (fun k => nth (Z.to_nat k) inds 0) (zr i (j + 1)).
Proof.
  intro H. induction H as [s i Hc|s i j g l r Hc Hij Hg Hl IHl Hr IHr]; cbn [conv prims].
  - rewrite zr_cons, zr_nil by lia. reflexivity.
  - pose proof (proj1 Hg). rewrite IHl, IHr, <- map_app, zr_app by lia. reflexivity.
Qed.
Definition view (b : nd) : Z * Z * Z := (kspine (nt b), match nt b with KL k => nth (Z.to_nat k) inds 0 | _ => nesc b end, nppos b).
Lemma conv_stored t : forall s i j B par ppos ch esc, stored (conv t) B ppos esc = map view (all t s i j B par ppos ch esc).
Proof.
  induction t as [k|s0 i0 j0 g l IHl r IHr]; intros; cbn [conv stored all map].
  - reflexivity.
  - unfold view at 1. cbn [nt nppos nesc kspine]. rewrite conv_spine, conv_size. f_equal. rewrite map_app. f_equal; auto.
Qed.
Lemma conv_leaves s i j t : shape mcs s i j t -> forall B par ppos ch esc, leaf_nodes (conv t) B = map nB (filter (fun b => ni b =? nj b) (all t s i j B par ppos ch esc)) /\
  zr i (j + 1) = map ni (filter (fun b => ni b =? nj b) (all t s i j B par ppos ch esc)).
Proof.
  intro H. induction H as [s i Hc|s i j g l r Hc Hij Hg Hl IHl Hr IHr]; intros; cbn [conv leaf_nodes all filter ni nj].
  - rewrite Z.eqb_refl. cbn [map nB ni]. rewrite zr_cons, zr_nil by lia. auto.
  - replace (i =? j) with false by lia. rewrite filter_app, !map_app, conv_size. pose proof (proj1 Hg).
    destruct (IHl (B + 1) (lab s i j) B (lab s i j :: ch) (B + 1 + ksize l)) as [A1 A2]. destruct (IHr (B + 1 + ksize l) (lab s i j) B [] esc) as [B1 B2].
    rewrite A1, B1. split; [reflexivity|]. rewrite <- A2, <- B2, zr_app by lia. reflexivity.
Qed.
End Whole.
