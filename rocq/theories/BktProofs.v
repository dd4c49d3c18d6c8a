From Coq Require Import QArith Qround Qabs Lqa.
From Verif Require Import Prelude KernModel BktModel BktSpec.
From Verif Require SgModel SgProofs2.
Import SgModel(coordT, find_key, sentinel_v).
Open Scope Z_scope.

Lemma block_div bl c : 0 < bl -> block_of bl c = map (fun v => v / bl) c.
Proof.
  intros H. apply map_ext. intros v. destruct (Z.ltb_spec v 0).
  - apply Z.quot_unique_exact || idtac.
    rewrite <- (Z.opp_involutive (v + (- bl + 1))), Z.quot_opp_l by lia.
    rewrite Z.quot_div_nonneg by lia.
    pose proof (Z.div_mod v bl ltac:(lia)). pose proof (Z.mod_pos_bound v bl H).
    assert (- (v + (- bl + 1)) / bl = - (v / bl)); [|lia].
    symmetry. apply (Z.div_unique _ _ _ (bl - 1 - v mod bl)); [left|]; nia.
  - rewrite Z.add_0_r. apply Z.quot_div_nonneg; lia.
Qed.
Lemma block1 c : block_of 1 c = c.
Proof. rewrite block_div by lia. rewrite <- map_id. apply map_ext. intros. apply Z.div_1_r. Qed.

Lemma insert_spec keys key : NoDup keys -> NoDup (insert keys key) /\ (forall c, In c (insert keys key) <-> In c keys \/ c = key) /\
  exists t, insert keys key = keys ++ t.
Proof.
  intros N. unfold insert. destruct (in_dec (list_eq_dec Z.eq_dec) key keys) as [I|I].
  - split; [assumption|]. split; [intros c; split; [auto|intros [H| ->]; assumption]|]. exists []. rewrite app_nil_r. reflexivity.
  - split.
    + apply NoDup_rev in N. rewrite <- (rev_involutive (keys ++ [key])). apply NoDup_rev. rewrite rev_app_distr. cbn. constructor; [rewrite <- in_rev; assumption|assumption].
    + split; [intros c; rewrite in_app_iff; cbn; intuition|]. eauto.
Qed.
Lemma inserts_spec {A} (f : A -> coordT) l : forall keys, NoDup keys ->
  let r := fold_left (fun ks x => insert ks (f x)) l keys in
  NoDup r /\ (forall c, In c r <-> In c keys \/ exists x, In x l /\ f x = c) /\ exists t, r = keys ++ t.
Proof.
  induction l as [|x l IH]; intros keys N; cbn [fold_left]; cbv zeta.
  - split; [assumption|]. split; [intros c; split; [auto|intros [|(x & [] & _)]; assumption]|]. exists []. rewrite app_nil_r. reflexivity.
  - destruct (insert_spec keys (f x) N) as (N1 & I1 & t1 & E1). destruct (IH _ N1) as (N2 & I2 & t2 & E2).
    split; [exact N2|]. split.
    + intros c. rewrite I2, I1. split.
      * intros [[H| ->]|(y & Hy & Ey)]; [auto|right; exists x; split; [left|]; reflexivity|right; exists y; split; [right; assumption|assumption]].
      * intros [H|(y & [->|Hy] & Ey)]; [auto|left; right; congruence|right; eauto].
    + exists (t1 ++ t2). rewrite E2, E1, app_assoc. reflexivity.
Qed.
Lemma box_in lohi : forall d, In d (box_offsets lohi) <-> Forall2 (fun lh x => fst lh <= x < snd lh) lohi d.
Proof.
  induction lohi as [|[lo hi] r IH]; intros d; cbn [box_offsets].
  - split; [intros [<-|[]]; constructor|]. intros F; inversion F; left; reflexivity.
  - rewrite in_flat_map. split.
    + intros (x & Hx & Hd). apply in_map_iff in Hd as (d' & <- & Hd'). apply in_map_iff in Hx as (i & <- & Hi). apply in_seq in Hi.
      constructor; [cbn; lia|]. apply IH. assumption.
    + intros F. inversion F as [|? x ? d' R F']; subst. cbn in R. exists x. split.
      * apply in_map_iff. exists (Z.to_nat (x - lo)). split; [lia|]. apply in_seq. lia.
      * apply in_map. apply IH. assumption.
Qed.
Lemma enlarge_spec lohi order : forall keys0 keys, NoDup keys -> (exists t, keys = keys0 ++ t) ->
  (forall i, In i order -> (i < length keys0)%nat) ->
  let r := enlarge lohi keys order in
  NoDup r /\ (exists t, r = keys0 ++ t) /\
  (forall c, In c r <-> In c keys \/ exists i d, In i order /\ In d (box_offsets lohi) /\ vadd (nth i keys0 []) d = c).
Proof.
  induction order as [|i order IH]; intros keys0 keys N [t Ht] Hi; cbv zeta.
  - change (enlarge lohi keys []) with keys. split; [assumption|]. split; [eauto|]. intros c. split; [auto|]. intros [|(i & d & [] & _)]; assumption.
  - change (enlarge lohi keys (i :: order)) with (enlarge lohi (enlarge1 lohi keys i) order).
    assert (En : nth i keys [] = nth i keys0 []) by (rewrite Ht; apply app_nth1, Hi; left; reflexivity).
    destruct (inserts_spec (fun d => vadd (nth i keys []) d) (box_offsets lohi) keys N) as (N1 & I1 & t1 & E1).
    change (fold_left _ _ keys) with (enlarge1 lohi keys i) in *.
    destruct (IH keys0 (enlarge1 lohi keys i) N1) as (N2 & P2 & I2).
    { exists (t ++ t1). rewrite E1, Ht, app_assoc. reflexivity. }
    { intros j Hj. apply Hi. right. assumption. }
    split; [exact N2|]. split; [exact P2|]. intros c. rewrite I2, I1, En. split.
    + intros [[H|(d & Hd & E)]|(j & d & Hj & H)]; [auto|right; exists i, d; split; [left; reflexivity|auto]|right; exists j, d; split; [right; assumption|assumption]].
    + intros [H|(j & d & [->|Hj] & Hd & E)]; [auto|left; right; eauto|right; exists j, d; auto].
Qed.

(** the keys of a launch *)
Lemma sparsity_spec dx disp off bl order : let keys := compute_sparsity dx disp off bl order in
  NoDup keys /\ (forall c, In c keys <-> exists x, In x order /\ particle_block dx disp off bl x = c) /\ (length keys <= length order)%nat.
Proof.
  cbv zeta. destruct (inserts_spec (particle_block dx disp off bl) order [] (NoDup_nil _)) as (N & I & _).
  split; [exact N|]. split; [intros c; rewrite I; cbn; intuition|].
  rewrite <- (map_length (particle_block dx disp off bl) order). apply NoDup_incl_length; [exact N|].
  intros c Hc. apply I in Hc as [[]|(x & Hx & E)]. apply in_map_iff. eauto.
Qed.

Lemma counts_spec dx disp xs keys order b :
  count_run dx disp xs keys order b = Z.of_nat (length (filter (fun p => b =? cellno dx disp xs keys p) order)).
Proof.
  unfold count_run.
  assert (G : forall c, fold_left (fun c p => fun b => if b =? cellno dx disp xs keys p then c b + 1 else c b) order c b
     = c b + Z.of_nat (length (filter (fun p => b =? cellno dx disp xs keys p) order))).
  { induction order as [|p order IH]; intros c; cbn [fold_left filter]; [cbn; lia|]. rewrite IH. destruct (b =? _); cbn [length]; lia. }
  rewrite G. lia.
Qed.
Lemma filter_perm {A} (f : A -> bool) l l' : Permutation l l' -> Permutation (filter f l) (filter f l').
Proof.
  induction 1; cbn.
  - constructor.
  - destruct (f x); [constructor|]; assumption.
  - destruct (f x), (f y); try constructor; try apply Permutation_refl.
  - etransitivity; eassumption.
Qed.

Lemma scan_step c b : scan c (S b) = scan c b + c (Z.of_nat b). Proof. reflexivity. Qed.
Lemma scan_mono c a b : (forall i, 0 <= c i) -> (a <= b)%nat -> scan c a <= scan c b.
Proof. intros H. induction 1; [lia|]. rewrite scan_step. specialize (H (Z.of_nat m)). lia. Qed.
Lemma scan_inj c a b i j : (forall i, 0 <= c i) -> 0 <= i < c (Z.of_nat a) -> 0 <= j < c (Z.of_nat b) -> scan c a + i = scan c b + j -> a = b /\ i = j.
Proof.
  intros H Hi Hj E. destruct (Nat.lt_trichotomy a b) as [L|[->|L]].
  - pose proof (scan_mono c (S a) b H L). rewrite scan_step in *. lia.
  - lia.
  - pose proof (scan_mono c (S b) a H L). rewrite scan_step in *. lia.
Qed.

Lemma NoDup_prefix {A} (a b : list A) : NoDup (a ++ b) -> NoDup a.
Proof. induction a as [|x a IH]; cbn; intros N; [constructor|]. inversion N; subst. constructor; [rewrite in_app_iff in *; tauto|auto]. Qed.
Section D.
Variables (dx disp : Q) (xs : list position) (keys : list coordT) (n : nat).
Hypothesis Hkeys : forall p, (p < n)%nat -> In (cell dx disp xs p) keys.
Hypothesis Nkeys : NoDup keys.
Notation cn := (cellno dx disp xs keys).
Lemma cn_spec p : (p < n)%nat -> exists b, cn p = Z.of_nat b /\ (b < length keys)%nat /\ nth b keys [] = cell dx disp xs p.
Proof.
  intros Hp. destruct (SgProofs2.find_key_in _ _ 0 (Z.le_refl 0) (Hkeys p Hp)) as (j & Hj & Ej & _).
  exists j. split; [unfold cellno; lia|]. split; [apply nth_error_Some; congruence|]. apply nth_error_nth. assumption.
Qed.
Lemma cn_eq p b : (p < n)%nat -> (b < length keys)%nat -> (Z.of_nat b =? cn p) = (if list_eq_dec Z.eq_dec (cell dx disp xs p) (nth b keys []) then true else false).
Proof.
  intros Hp Hb. destruct (cn_spec p Hp) as (j & Ej & Lj & Hj). rewrite Ej. destruct (list_eq_dec Z.eq_dec _ _) as [E|E].
  - apply Z.eqb_eq. f_equal. apply (proj1 (NoDup_nth keys []) Nkeys); congruence.
  - apply Z.eqb_neq. intros X. apply Nat2Z.inj in X. subst. congruence.
Qed.
Variable c : Z -> Z.
Hypothesis Hc : forall b, c b = Z.of_nat (length (filter (fun p => b =? cn p) (seq 0 n))).
Lemma c_nonneg b : 0 <= c b. Proof. rewrite Hc. lia. Qed.
Notation off := (fun b => scan c (Z.to_nat b)).
Definition fetched (evs : list ev) (b : Z) : nat := length (filter (fun e => match e with Fetch p => b =? cn p | _ => false end) evs).
Definition loc (s : dstate) (p : nat) : Z := off (cn p) + dst s p.
Record good (a : list ev) (s : dstate) : Prop := {
  g_tmp : forall b, tmp s b = Z.of_nat (fetched a b);
  g_rng : forall p, In (Fetch p) a -> 0 <= dst s p < tmp s (cn p);
  g_inj : forall p q, In (Fetch p) a -> In (Fetch q) a -> cn p = cn q -> dst s p = dst s q -> p = q;
  g_idx : forall p, In (Store p) a -> idx s (loc s p) = Z.of_nat p;
  g_ord : forall p, In (Store p) a -> In (Fetch p) a
}.
Lemma fetched_bound evs : NoDup evs -> (forall p, In (Fetch p) evs -> (p < n)%nat) -> forall b, Z.of_nat (fetched evs b) <= c b.
Proof.
  intros N Hin b. rewrite Hc. apply inj_le. unfold fetched.
  set (g := fun e => match e with Fetch p => p | Store p => p end).
  rewrite <- (map_length g (filter (fun e => match e with Fetch p => b =? cn p | Store _ => false end) evs)). apply NoDup_incl_length.
  - assert (Inj : forall e e', In e (filter (fun e => match e with Fetch p => b =? cn p | Store _ => false end) evs) ->
       In e' (filter (fun e => match e with Fetch p => b =? cn p | Store _ => false end) evs) -> g e = g e' -> e = e').
    { intros [p|p] [q|q] H1 H2; apply filter_In in H1 as [_ H1]; apply filter_In in H2 as [_ H2]; try discriminate. cbn. congruence. }
    apply NoDup_filter with (f := fun e => match e with Fetch p => b =? cn p | Store _ => false end) in N. revert N Inj.
    generalize (filter (fun e => match e with Fetch p => b =? cn p | Store _ => false end) evs). clear. induction l as [|e l IH]; intros N Inj; cbn; [constructor|].
    inversion N; subst. constructor.
    + intros Hin. apply in_map_iff in Hin as (e' & E & He'). apply Inj in E; [|right; assumption|left; reflexivity]. subst. contradiction.
    + apply IH; [assumption|]. intros e1 e2 H1' H2'. apply Inj; right; assumption.
  - intros p Hp. apply in_map_iff in Hp as ([q|q] & <- & Hq); apply filter_In in Hq as [Hq Hb]; [|discriminate].
    apply filter_In. split; [|exact Hb]. apply in_seq. cbn. specialize (Hin q Hq). lia.
Qed.
Lemma good_run evs idx0 : schedule n evs -> forall a b, evs = a ++ b -> good a (fold_left (dstep dx disp xs keys off) a (mkD (fun _ => 0) (fun _ => 0) idx0)).
Proof.
  intros (Ne & _ & Hb & Ho) a. induction a as [|e a IH] using rev_ind; intros b E.
  - cbn. split; cbn; try tauto; try reflexivity.
  - rewrite <- app_assoc in E. cbn in E. specialize (IH _ E). rewrite fold_left_app. cbn [fold_left].
    set (s := fold_left _ a _) in *. clearbody s. destruct IH as [G1 G2 G3 G4 G5].
    assert (Nin : ~ In e a). { rewrite E in Ne. apply NoDup_remove_2 in Ne. intros H; apply Ne. apply in_app_iff. auto. }
    assert (Sub : forall x, In x a -> In x evs) by (intros x Hx; rewrite E; apply in_app_iff; auto).
    assert (In e evs) as Ie by (rewrite E; apply in_app_iff; right; left; reflexivity).
    assert (Bnd : forall b, tmp s b <= c b).
    { intros b'. rewrite G1. apply fetched_bound; [rewrite E in Ne; apply NoDup_prefix in Ne; assumption|].
      intros p Hp. apply (Hb (Fetch p)), Sub. assumption. }
    destruct e as [p|p].
    + assert (Ht : forall b', tmp (dstep dx disp xs keys off s (Fetch p)) b' = Z.of_nat (fetched (a ++ [Fetch p]) b')).
      { intros b'. cbn. unfold fetched. rewrite filter_app, app_length. cbn. specialize (G1 b'). unfold fetched in G1.
        destruct (b' =? cn p); cbn; lia. }
      split.
      * exact Ht.
      * intros q Hq. cbn. apply in_app_iff in Hq. destruct (Nat.eqb_spec q p) as [->|Nq].
        -- rewrite Z.eqb_refl. rewrite G1. lia.
        -- destruct Hq as [Hq|[Hq|[]]]; [|congruence]. specialize (G2 q Hq). destruct (_ =? _); lia.
      * intros q q' Hq Hq'. cbn. apply in_app_iff in Hq. apply in_app_iff in Hq'. intros Ec.
        destruct (Nat.eqb_spec q p) as [->|Nq]; destruct (Nat.eqb_spec q' p) as [->|Nq']; auto.
        -- destruct Hq' as [Hq'|[Hq'|[]]]; [|congruence]. specialize (G2 q' Hq'). rewrite <- Ec in G2. lia.
        -- destruct Hq as [Hq|[Hq|[]]]; [|congruence]. specialize (G2 q Hq). rewrite Ec in G2. lia.
        -- destruct Hq' as [Hq'|[Hq'|[]]]; [|congruence]. destruct Hq as [Hq|[Hq|[]]]; [|congruence]. apply G3; assumption.
      * intros q Hq. apply in_app_iff in Hq as [Hq|[Hq|[]]]; [|discriminate]. unfold loc. cbn.
        destruct (Nat.eqb_spec q p) as [->|Nq]; [exfalso; apply Nin, G5; assumption|]. apply G4. assumption.
      * intros q Hq. apply in_app_iff in Hq as [Hq|[Hq|[]]]; [|discriminate]. apply in_app_iff. left. apply G5. assumption.
    + assert (Fp : In (Fetch p) a) by (apply (Ho p a b); exact E).
      split.
      * intros b'. cbn. rewrite G1. unfold fetched. rewrite filter_app, app_length. cbn. lia.
      * intros q Hq. apply in_app_iff in Hq as [Hq|[Hq|[]]]; [|discriminate]. cbn. apply G2. assumption.
      * intros q q' Hq Hq'. apply in_app_iff in Hq as [Hq|[Hq|[]]]; [|discriminate]. apply in_app_iff in Hq' as [Hq'|[Hq'|[]]]; [|discriminate].
        cbn. apply G3; assumption.
      * intros q Hq. unfold loc. cbn. apply in_app_iff in Hq.
        destruct (Z.eqb_spec (scan c (Z.to_nat (cn q)) + dst s q) (scan c (Z.to_nat (cn p)) + dst s p)) as [El|El].
        -- f_equal. destruct Hq as [Hq|[Hq|[]]]; [|congruence]. apply G5 in Hq.
           pose proof (Hb _ (Sub _ Hq)) as Lq. pose proof (Hb _ (Sub _ Fp)) as Lp. cbn in Lq, Lp.
           destruct (cn_spec q Lq) as (bq & Eq & _). destruct (cn_spec p Lp) as (bp & Ep & _).
           pose proof (G2 q Hq) as Rq. pose proof (G2 p Fp) as Rp. pose proof (Bnd (cn q)). pose proof (Bnd (cn p)).
           rewrite Eq, Ep, !Nat2Z.id in *.
           destruct (scan_inj c bq bp (dst s q) (dst s p) c_nonneg) as [E1 E2]; try lia.
           symmetry. apply G3; auto. rewrite Eq, Ep. lia.
        -- destruct Hq as [Hq|[Hq|[]]]; [apply G4; assumption|]. injection Hq as ->. congruence.
      * intros q Hq. apply in_app_iff. left. apply in_app_iff in Hq as [Hq|[Hq|[]]]; [apply G5; assumption|]. injection Hq as <-. assumption.
Qed.
(** every particle is found in its bucket *)
Lemma placed evs idx0 p : schedule n evs -> (p < n)%nat ->
  exists j, 0 <= j < c (cn p) /\ distribute dx disp xs keys off evs idx0 (off (cn p) + j) = Z.of_nat p.
Proof.
  intros Hs Hp. pose proof (good_run evs idx0 Hs evs [] ltac:(rewrite app_nil_r; reflexivity)) as [G1 G2 G3 G4 G5].
  destruct Hs as (Ne & Hall & Hb & Ho). destruct (Hall p Hp) as [HF HS].
  exists (dst (fold_left (dstep dx disp xs keys off) evs (mkD (fun _ => 0) (fun _ => 0) idx0)) p).
  split; [|apply G4; assumption].
  pose proof (G2 p HF) as R. rewrite G1 in R. pose proof (fetched_bound evs Ne (fun q Hq => Hb (Fetch q) Hq) (cn p)). lia.
Qed.
Lemma members_filter b : (b < length keys)%nat -> filter (fun p => Z.of_nat b =? cn p) (seq 0 n) = members (cell dx disp xs) n (nth b keys []).
Proof.
  intros Hb. unfold members. assert (F : forall p, In p (seq 0 n) -> (p < n)%nat) by (intros p Hp; apply in_seq in Hp; lia).
  revert F. generalize (seq 0 n). induction l as [|p l IH]; intros F; cbn [filter]; [reflexivity|].
  rewrite cn_eq, IH by (try assumption; auto using in_eq; intros; apply F; right; assumption). reflexivity.
Qed.
Lemma bucket_perm evs idx0 b : schedule n evs -> (b < length keys)%nat ->
  Permutation (map Z.of_nat (members (cell dx disp xs) n (nth b keys []))) (piece (distribute dx disp xs keys off evs idx0) (scan c b) (c (Z.of_nat b))).
Proof.
  intros Hs Hb. apply NoDup_Permutation_bis.
  - apply FinFun.Injective_map_NoDup; [intros u v; lia|]. apply NoDup_filter, seq_NoDup.
  - unfold piece. rewrite !map_length, seq_length, Hc, members_filter by assumption. lia.
  - intros z Hz. apply in_map_iff in Hz as (p & <- & Hp). apply filter_In in Hp as [Hp Hq]. apply in_seq in Hp.
    destruct (placed evs idx0 p Hs ltac:(lia)) as (j & Rj & Ej).
    pose proof (cn_eq p b ltac:(lia) Hb) as Ecn. rewrite Hq in Ecn. apply Z.eqb_eq in Ecn. rewrite <- Ecn, Nat2Z.id in *.
    unfold piece. apply in_map_iff. exists (Z.to_nat j). split; [rewrite Z2Nat.id by lia; exact Ej|]. apply in_seq. lia.
Qed.
(** total *)
Lemma scan_total : scan c (length keys) = Z.of_nat n.
Proof.
  assert (G : forall m, scan c m = Z.of_nat (length (filter (fun p => cn p <? Z.of_nat m) (seq 0 n)))).
  { induction m as [|m IH].
    - cbn [scan]. replace (filter _ _) with (@nil nat); [reflexivity|].
      assert (F : forall p, In p (seq 0 n) -> (p < n)%nat) by (intros p Hp; apply in_seq in Hp; lia).
      revert F. generalize (seq 0 n). induction l as [|p l IHl]; intros F; cbn [filter]; [reflexivity|].
      destruct (cn_spec p (F p (in_eq _ _))) as (j & -> & _). destruct (Z.ltb_spec (Z.of_nat j) (Z.of_nat 0)); [lia|]. apply IHl. intros; apply F; right; assumption.
    - rewrite scan_step, IH, Hc. generalize (seq 0 n). induction l as [|p l IHl]; [reflexivity|]. cbn [filter].
      destruct (Z.ltb_spec (cn p) (Z.of_nat m)), (Z.eqb_spec (Z.of_nat m) (cn p)), (Z.ltb_spec (cn p) (Z.of_nat (S m))); cbn [length]; lia. }
  rewrite G. f_equal. replace (filter _ _) with (seq 0 n); [apply seq_length|]. symmetry.
  assert (F : forall p, In p (seq 0 n) -> (p < n)%nat) by (intros p Hp; apply in_seq in Hp; lia).
  revert F. generalize (seq 0 n). induction l as [|p l IHl]; intros F; cbn [filter]; [reflexivity|].
  destruct (cn_spec p (F p (in_eq _ _))) as (j & -> & Lj & _). destruct (Z.ltb_spec (Z.of_nat j) (Z.of_nat (length keys))); [|lia]. f_equal. apply IHl. intros; apply F; right; assumption.
Qed.
Lemma all_perm evs idx0 : schedule n evs ->
  Permutation (map Z.of_nat (seq 0 n)) (piece (distribute dx disp xs keys off evs idx0) 0 (Z.of_nat n)).
Proof.
  intros Hs. apply NoDup_Permutation_bis.
  - apply FinFun.Injective_map_NoDup; [intros u v; lia|]. apply seq_NoDup.
  - unfold piece. rewrite !map_length, !seq_length. lia.
  - intros z Hz. apply in_map_iff in Hz as (p & <- & Hp). apply in_seq in Hp.
    destruct (placed evs idx0 p Hs ltac:(lia)) as (j & Rj & Ej). destruct (cn_spec p ltac:(lia)) as (b & Eb & Lb & _).
    rewrite Eb, Nat2Z.id in *. pose proof (scan_mono c (S b) (length keys) c_nonneg Lb) as M. rewrite scan_step, scan_total in M.
    pose proof (scan_mono c 0 b c_nonneg ltac:(lia)). cbn [scan] in *.
    unfold piece. apply in_map_iff. exists (Z.to_nat (scan c b + j)). split; [rewrite Z2Nat.id by lia; exact Ej|]. apply in_seq. lia.
Qed.
End D.

(** positions at most dx apart are in adjacent cells *)
Lemma floor_close (a b : Q) : (Qabs (a - b) <= 1)%Q -> -1 <= Qfloor b - Qfloor a <= 1.
Proof.
  intros H. apply Qabs_Qle_condition in H as [H1 H2].
  pose proof (Qfloor_le a). pose proof (Qlt_floor a) as La. pose proof (Qfloor_le b). pose proof (Qlt_floor b) as Lb.
  rewrite inject_Z_plus in La, Lb. change (inject_Z 1) with 1%Q in *.
  assert (X1 : (inject_Z (Qfloor b) < inject_Z (Qfloor a + 2))%Q) by (rewrite inject_Z_plus; change (inject_Z 2) with 2%Q; Lqa.lra).
  assert (X2 : (inject_Z (Qfloor a) < inject_Z (Qfloor b + 2))%Q) by (rewrite inject_Z_plus; change (inject_Z 2) with 2%Q; Lqa.lra).
  rewrite <- Zlt_Qlt in X1, X2. lia.
Qed.
Lemma close_adjacent dx disp x y : (0 < dx)%Q -> close dx x y -> adjacent (cell_coord dx disp 0 x) (cell_coord dx disp 0 y).
Proof.
  intros Hd. induction 1 as [|a b x y H _ IH]; constructor; [|exact IH]. rewrite !Z.add_0_r. unfold lower_trunc. apply floor_close.
  setoid_replace (a * (1 / dx) + disp - (b * (1 / dx) + disp))%Q with ((a - b) / dx)%Q by (field; intros E; rewrite E in Hd; discriminate).
  unfold Qdiv. rewrite Qabs_Qmult. rewrite (Qabs_pos (/ dx)) by (apply Qlt_le_weak, Qinv_lt_0_compat; assumption).
  apply Qle_shift_div_r; [assumption|]. rewrite Qmult_1_l. exact H.
Qed.
