(** The ranges and splits computed by build_topo are those of the radix tree of the codes. *)
From Verif Require Import Prelude BvhModel BvhBits.
Open Scope Z_scope.

Section Topo.
Variable mcs : list Z.
Notation n := (BvhModel.n mcs).
Definition cf (i : Z) : Z := nth (Z.to_nat i) mcs 0.
Hypothesis big : 1 < n.
Hypothesis rng : forall i, 0 <= i < n -> 0 <= cf i < 2 ^ 32.
Hypothesis srt : forall i j, 0 <= i -> i <= j -> j < n -> cf i <= cf j.
Notation dl := (dl cf).

Lemma code_ok i : 0 <= i < n -> code mcs i = Some (cf i).
Proof.
  intro H. unfold code, at_. destruct (Z.ltb_spec i 0); [lia|]. apply nth_error_nth'. unfold BvhModel.n in H. lia.
Qed.
(** gap a separates earlier than gap b *)
Definition gl (a b : Z) : Prop := dl a < dl b \/ (dl a = dl b /\ a < b).
Definition split (i j g : Z) : Prop := i <= g < j /\ forall k, i <= k < j -> k <> g -> gl g k.
Lemma gl_trans a b c : gl a b -> gl b c -> gl a c.
Proof. unfold gl. lia. Qed.
Lemma split_exists i j : i < j -> exists g, split i j g.
Proof.
  intro H. assert (X : forall d, exists g, split i (i + 1 + Z.of_nat d) g).
  { induction d as [|d (g & Hg & Hs)]; [exists i; split; intros; lia|]. set (e := i + 1 + Z.of_nat d) in *.
    assert (D : gl g e \/ gl e g) by (unfold gl; lia). destruct D as [D|D].
    - exists g. split; [lia|]. intros k Hk Nk. destruct (Z.eq_dec k e) as [->|]; [exact D|apply Hs; lia].
    - exists e. split; [lia|]. intros k Hk Nk. destruct (Z.eq_dec k g) as [->|]; [exact D|]. apply (gl_trans e g k D). apply Hs; lia. }
  destruct (X (Z.to_nat (j - i - 1))) as (g & Hg). exists g. replace j with (i + 1 + Z.of_nat (Z.to_nat (j - i - 1))) by lia. exact Hg.
Qed.

(** what is known of a range below the gaps that cut it out; s: it is a left child *)
Record ctx (s : bool) (i j : Z) : Prop := {
  cx_rng : 0 <= i <= j /\ j < n;
  cx_l : 0 < i -> forall k, i <= k < j -> gl (i - 1) k;
  cx_r : j < n - 1 -> forall k, i <= k < j -> gl j k;
  cx_s : if s then j < n - 1 /\ (0 < i -> gl (i - 1) j) else (i = 0 /\ j = n - 1) \/ (0 < i /\ (j < n - 1 -> gl j (i - 1))) }.
Lemma ctx_root : ctx false 0 (n - 1).
Proof. constructor; [lia|lia|lia|auto]. Qed.
Lemma ctx_left {s i j g} : ctx s i j -> split i j g -> ctx true i g.
Proof.
  intros [R A B C] [Hg Hs]. constructor; [lia|intros H0 k Hk; apply (A H0); lia|intros H0 k Hk; apply Hs; lia|]. split; [lia|]. intro H0. apply (A H0). lia.
Qed.
Lemma ctx_right {s i j g} : ctx s i j -> split i j g -> ctx false (g + 1) j.
Proof.
  intros [R A B C] [Hg Hs]. constructor; [lia|intros H0 k Hk; replace (g + 1 - 1) with g by lia; apply Hs; lia|intros H0 k Hk; apply (B H0); lia|]. right. split; [lia|]. intro H0. replace (g + 1 - 1) with g by lia. apply (B H0). lia.
Qed.

Lemma run_end_ok j : forall f right, right <= j < n -> 0 <= right -> (Z.to_nat (j - right) < f)%nat -> (forall k, right <= k < j -> dl k = 32) -> (j < n - 1 -> dl j <> 32) -> run_end mcs f right = Some j.
Proof.
  induction f as [|f IH]; intros right Hr H0 Hf Ha Hj; [lia|]. cbn [run_end]. destruct (Z.ltb_spec right (n - 1)) as [L|L]; [|f_equal; lia].
  rewrite !code_ok by lia. cbn [obind]. pose proof (lxor_range (cf right) (cf (right + 1)) (rng right ltac:(lia)) (rng (right + 1) ltac:(lia))) as Lr.
  destruct (Z.eq_dec right j) as [->|N].
  - specialize (Hj L). destruct (Z.eqb_spec (cf j) (cf (j + 1))) as [E|E]; [|reflexivity]. exfalso. apply Hj. unfold BvhBits.dl. rewrite E, Z.lxor_nilpotent. reflexivity.
  - specialize (Ha right ltac:(lia)) as E. apply (clz_32 _ Lr) in E. apply Z.lxor_eq in E. rewrite E, Z.eqb_refl. cbn [negb]. apply IH; try lia. intros; apply Ha; lia.
Qed.
Definition lab (s : bool) (i j : Z) : Z := if s then j else i.
Lemma dl_eq i : 0 <= i < n - 1 -> (dl i = 32 <-> cf i = cf (i + 1)).
Proof.
  intro H. unfold BvhBits.dl. rewrite clz_32 by (apply lxor_range; apply rng; lia). apply Z.lxor_eq_0_iff.
Qed.
Lemma node_range_ok s i j : ctx s i j -> i < j -> node_range mcs (lab s i j) = Some (i, j).
Proof.
  intros [R A B C] Hij. unfold node_range. destruct s; cbn [lab].
  - destruct C as [C1 C2]. destruct (Z.eqb_spec j 0) as [?|Nj]; [lia|]. rewrite !code_ok by lia. cbn [obind].
    assert (Dj : dl j < dl (j - 1)) by (specialize (B C1 (j - 1) ltac:(lia)); unfold gl in B; lia). pose proof (dl_range n cf rng (j - 1) ltac:(lia)) as D1. pose proof (dl_range n cf rng j ltac:(lia)) as D2.
    assert (Ne : cf j <> cf (j + 1)) by (intro E; apply (dl_eq j) in E; lia).
    destruct (Z.eqb_spec (cf j) (cf (j + 1))) as [?|_]; [contradiction|]. rewrite andb_false_r.
    assert (E1 : clz (Z.lxor (cf (j - 1)) (cf j)) = dl (j - 1)) by (unfold BvhBits.dl; replace (j - 1 + 1) with j by lia; reflexivity).
    assert (E2 : clz (Z.lxor (cf (j + 1)) (cf j)) = dl j) by (unfold BvhBits.dl; rewrite Z.lxor_comm; reflexivity).
    rewrite E1, E2. destruct (Z.ltb_spec (dl j) (dl (j - 1))); [|lia]. cbv zeta.
    destruct (search_ok mcs j (-1) (dl j) (cf j) (j - i)) as (step & S1 & S2); [|lia|].
    + intros x Hx. unfold hits. cbv zeta. replace (j + x * -1) with (j - x) by lia. destruct (Z.ltb_spec (j - x) n); [|lia]. destruct (Z.leb_spec 0 (j - x)) as [L|L]; cbn [andb]; [|lia].
      exists (cf (j - x)). split; [apply code_ok; lia|]. apply eq_true_iff_eq. rewrite Z.ltb_lt, Z.leb_le. rewrite (range_gt n cf rng srt (j - x) j (dl j)) by lia. split.
      * intro X. destruct (Z_le_gt_dec x (j - i)); [assumption|]. exfalso. specialize (X (i - 1) ltac:(lia)). specialize (C2 ltac:(lia)). unfold gl in C2. lia.
      * intros X k Hk. specialize (B C1 k ltac:(lia)). unfold gl in B. lia.
    + rewrite S1. cbn [obind]. rewrite S2. cbn [obind]. change (-1 =? 1) with false. cbv iota. f_equal. f_equal. lia.
  - destruct C as [[-> ->]|[C1 C2]]; [reflexivity|]. destruct (Z.eqb_spec i 0) as [?|Ni]; [lia|]. rewrite !code_ok by lia. cbn [obind].
    pose proof (dl_range n cf rng (i - 1) ltac:(lia)) as D1. pose proof (dl_range n cf rng i ltac:(lia)) as D2. specialize (A C1). assert (Di : dl (i - 1) <= dl i) by (specialize (A i ltac:(lia)); unfold gl in A; lia).
    assert (E1 : clz (Z.lxor (cf (i - 1)) (cf i)) = dl (i - 1)) by (unfold BvhBits.dl; replace (i - 1 + 1) with i by lia; reflexivity).
    assert (E2 : clz (Z.lxor (cf (i + 1)) (cf i)) = dl i) by (unfold BvhBits.dl; rewrite Z.lxor_comm; reflexivity).
    pose proof (dl_eq (i - 1) ltac:(lia)) as Q1. replace (i - 1 + 1) with i in Q1 by lia. pose proof (dl_eq i ltac:(lia)) as Q2.
    destruct (Z.eq_dec (dl (i - 1)) 32) as [E|E].
    + rewrite (proj1 Q1 E), (proj1 Q2 ltac:(lia)), !Z.eqb_refl. cbn [andb]. rewrite (run_end_ok j); [reflexivity|lia|lia|unfold fuel, BvhModel.n in *; lia| |].
      * intros k Hk. specialize (A k ltac:(lia)). unfold gl in A. pose proof (dl_range n cf rng k ltac:(lia)). lia.
      * intro Hj. specialize (C2 Hj). unfold gl in C2. lia.
    + destruct (Z.eqb_spec (cf (i - 1)) (cf i)) as [X|_]; [exfalso; apply E; apply Q1; exact X|]. cbn [andb]. rewrite E1, E2. destruct (Z.ltb_spec (dl i) (dl (i - 1))); [lia|]. cbv zeta.
      destruct (search_ok mcs i 1 (dl (i - 1)) (cf i) (j - i)) as (step & S1 & S2); [|lia|].
      * intros x Hx. unfold hits. cbv zeta. replace (i + x * 1) with (i + x) by lia. destruct (Z.leb_spec 0 (i + x)); [|lia]. destruct (Z.ltb_spec (i + x) n) as [L|L]; cbn [andb]; [|lia].
        exists (cf (i + x)). split; [apply code_ok; lia|]. apply eq_true_iff_eq. rewrite Z.ltb_lt, Z.leb_le. rewrite Z.lxor_comm. rewrite (range_gt n cf rng srt i (i + x) (dl (i - 1))) by lia. split.
        -- intro X. destruct (Z_le_gt_dec x (j - i)); [assumption|]. exfalso. specialize (X j ltac:(lia)). specialize (C2 ltac:(lia)). unfold gl in C2. lia.
        -- intros X k Hk. pose proof (A k ltac:(lia)) as Ak. unfold gl in Ak. destruct (Z.eq_dec (dl (i - 1)) (dl k)) as [Ek|]; [|lia]. exfalso.
           destruct (gap_unique n cf rng srt (i - 1) k ltac:(lia) ltac:(lia) ltac:(lia) Ek ltac:(lia)) as (q & Hq & Dq). specialize (A q ltac:(lia)). unfold gl in A. lia.
      * rewrite S1. cbn [obind]. rewrite S2. cbn [obind]. change (1 =? 1) with true. cbv iota. f_equal. f_equal. lia.
Qed.
Lemma find_split_ok i j g : 0 <= i -> j < n -> split i j g -> find_split mcs i j = Some g.
Proof.
  intros Hi Hj [Hg Hs]. unfold find_split. rewrite !code_ok by lia. cbn [obind]. pose proof (lxor_range (cf i) (cf j) (rng i ltac:(lia)) (rng j ltac:(lia))) as Lr. pose proof (clz_range _ Lr) as Cr.
  assert (Dk : forall k, i <= k < j -> 0 <= dl k <= 32) by (intros; apply (dl_range n); [exact rng|lia]).
  destruct (Z.eqb_spec (cf i) (cf j)) as [E|E].
  - f_equal. destruct (Z.eq_dec g i) as [|N]; [lia|]. exfalso. specialize (Hs i ltac:(lia) ltac:(lia)). unfold gl in Hs. pose proof (Dk i ltac:(lia)). pose proof (Dk g ltac:(lia)).
    assert (Y : 31 < clz (Z.lxor (cf i) (cf j))) by (rewrite E, Z.lxor_nilpotent; cbn; lia). pose proof (proj1 (range_gt n cf rng srt i j 31 ltac:(lia) ltac:(lia) ltac:(lia) ltac:(lia)) Y g ltac:(lia)). lia.
  - assert (L32 : clz (Z.lxor (cf i) (cf j)) < 32). { destruct (Z.eq_dec (clz (Z.lxor (cf i) (cf j))) 32) as [X|]; [|lia]. apply (clz_32 _ Lr) in X. apply Z.lxor_eq in X. contradiction. }
    assert (LZ : clz (Z.lxor (cf i) (cf j)) = dl g).
    { pose proof (Dk g ltac:(lia)) as Dg. destruct (Z.lt_trichotomy (dl g) (clz (Z.lxor (cf i) (cf j)))) as [X|[X|X]]; [exfalso| lia |exfalso].
      - pose proof (proj1 (range_gt n cf rng srt i j (dl g) ltac:(lia) ltac:(lia) ltac:(lia) ltac:(lia)) X g ltac:(lia)). lia.
      - assert (Y : clz (Z.lxor (cf i) (cf j)) < clz (Z.lxor (cf i) (cf j))); [|lia]. apply (range_gt n cf rng srt i j (clz (Z.lxor (cf i) (cf j)))); try lia. intros k Hk. destruct (Z.eq_dec k g) as [->|N]; [lia|]. specialize (Hs k Hk N). unfold gl in Hs. lia. }
    rewrite (split_loop_ok mcs i (cf i) (clz (Z.lxor (cf i) (cf j))) (g - i)); [cbn [obind]; f_equal; lia|lia|unfold numTrunk; lia| |dmlia|unfold fuel, BvhModel.n in *; dmlia|lia|dmlia].
    intros x Hx Hn. unfold numTrunk in Hn. exists (cf (i + x)). split; [apply code_ok; lia|]. apply eq_true_iff_eq. rewrite Z.ltb_lt, Z.leb_le. rewrite LZ, (Z.lxor_comm (cf (i + x))). pose proof (Dk g ltac:(lia)). rewrite (range_gt n cf rng srt i (i + x) (dl g)) by lia. split.
    + intro X. destruct (Z_le_gt_dec x (g - i)); [assumption|]. exfalso. specialize (X g ltac:(lia)). lia.
    + intros X k Hk. specialize (Hs k ltac:(lia) ltac:(lia)). unfold gl in Hs. lia.
Qed.

(** the radix tree, its trunk nodes numbered as in the code: a left child by its last leaf, a right child and the root by their first *)
Inductive ktree := KL (i : Z) | KN (s : bool) (i j g : Z) (l r : ktree).
Inductive shape : bool -> Z -> Z -> ktree -> Prop :=
| sh_l s i : ctx s i i -> shape s i i (KL i)
| sh_n s i j g l r : ctx s i j -> i < j -> split i j g -> shape true i g l -> shape false (g + 1) j r -> shape s i j (KN s i j g l r).
Lemma shape_exists : forall d s i j, Z.to_nat (j - i) = d -> ctx s i j -> exists t, shape s i j t.
Proof.
  induction d as [d IH] using lt_wf_ind; intros s i j Hd Hc. pose proof (cx_rng _ _ _ Hc). destruct (Z.eq_dec i j) as [->|N]; [exists (KL j); constructor; exact Hc|].
  destruct (split_exists i j ltac:(lia)) as (g & Hg). pose proof (proj1 Hg).
  destruct (IH (Z.to_nat (g - i)) ltac:(lia) true i g eq_refl (ctx_left Hc Hg)) as (l & Hl). destruct (IH (Z.to_nat (j - (g + 1))) ltac:(lia) false (g + 1) j eq_refl (ctx_right Hc Hg)) as (r & Hr).
  exists (KN s i j g l r). constructor; auto; lia.
Qed.
Lemma shape_rng {s i j t} : shape s i j t -> 0 <= i <= j /\ j < n.
Proof. intros []; apply cx_rng with (1 := H). Qed.
End Topo.
