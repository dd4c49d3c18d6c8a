(** Pre-order numbering of the radix tree. *)
From Verif Require Import Prelude BvhModel BvhBits BvhTopo.
Open Scope Z_scope.

Fixpoint ksize (t : ktree) : Z := match t with KL _ => 1 | KN _ _ _ _ l r => 1 + ksize l + ksize r end.
Fixpoint kspine (t : ktree) : Z := match t with KL _ => 0 | KN _ _ _ _ l _ => 1 + kspine l end.
(** a node of the tree: side, range, subtree, number, label and number of the parent, labels of the ancestors with the same first leaf
    (nearest first), number of the node behind its subtree *)
Record nd := mkNd { ns : bool; ni : Z; nj : Z; nt : ktree; nB : Z; npar : Z; nppos : Z; nch : list Z; nesc : Z }.
Fixpoint all (t : ktree) (s : bool) (i j B par ppos : Z) (ch : list Z) (esc : Z) : list nd :=
  mkNd s i j t B par ppos ch esc ::
  match t with
  | KL _ => []
  | KN _ _ _ g l r => all l true i g (B + 1) (lab s i j) B (lab s i j :: ch) (B + 1 + ksize l) ++ all r false (g + 1) j (B + 1 + ksize l) (lab s i j) B [] esc
  end.
Definition nlab (a : nd) : Z := lab (ns a) (ni a) (nj a).
Lemma ksize_pos t : 1 <= ksize t.
Proof. induction t; cbn [ksize]; lia. Qed.
(** nodes whose first leaf is k *)
Fixpoint lc (t : ktree) (k : Z) : Z := match t with KL _ => 0 | KN _ i _ _ l r => (if i =? k then 1 else 0) + lc l k + lc r k end.
Fixpoint labels (t : ktree) : list Z := match t with KL _ => [] | KN s i j _ l r => lab s i j :: labels l ++ labels r end.
Definition zr (a b : Z) : list Z := map (fun k => a + Z.of_nat k) (seq 0 (Z.to_nat (b - a))).
Lemma zr_in a b x : In x (zr a b) <-> a <= x < b.
Proof.
  unfold zr. rewrite in_map_iff. split.
  - intros (k & <- & Hk). apply in_seq in Hk. lia.
  - intro H. exists (Z.to_nat (x - a)). split; [lia|]. apply in_seq. lia.
Qed.
Lemma zr_cons a b : a < b -> zr a b = a :: zr (a + 1) b.
Proof.
  intro H. unfold zr. replace (Z.to_nat (b - a)) with (S (Z.to_nat (b - (a + 1)))) by lia. cbn [seq map]. f_equal; [lia|]. rewrite <- seq_shift, map_map. apply map_ext. intro; lia.
Qed.
Lemma zr_nil a b : b <= a -> zr a b = [].
Proof. intro H. unfold zr. replace (Z.to_nat (b - a)) with 0%nat by lia. reflexivity. Qed.
Lemma zr_app a b c : a <= b -> b <= c -> zr a b ++ zr b c = zr a c.
Proof.
  intros H1 H2. unfold zr. replace (Z.to_nat (c - a)) with (Z.to_nat (b - a) + Z.to_nat (c - b))%nat by lia. rewrite seq_app, map_app. f_equal. cbn [plus]. 
  rewrite <- (Nat.add_0_r (Z.to_nat (b - a))) at 1. generalize (Z.to_nat (c - b)) as m. generalize 0%nat. intros q m. revert q. induction m as [|m IH]; intro q; [reflexivity|]. cbn [seq map]. f_equal; [lia|]. rewrite (IH (S q)). f_equal. f_equal. lia.
Qed.
Lemma zr_snoc a b : a <= b -> zr a (b + 1) = zr a b ++ [b].
Proof. intro H. rewrite <- (zr_app a b (b + 1)) by lia. f_equal. rewrite zr_cons, zr_nil by lia. reflexivity. Qed.
Lemma zr_length a b : length (zr a b) = Z.to_nat (b - a).
Proof. unfold zr. rewrite map_length, seq_length. reflexivity. Qed.

Section Tree.
Variable mcs : list Z.
Notation n := (BvhModel.n mcs).
Notation shape := (shape mcs).

Lemma all_head t s i j B par ppos ch esc : In (mkNd s i j t B par ppos ch esc) (all t s i j B par ppos ch esc).
Proof. destruct t; left; reflexivity. Qed.
Lemma all_in {s i j t} : shape s i j t -> forall B par ppos ch esc a, In a (all t s i j B par ppos ch esc) ->
  shape (ns a) (ni a) (nj a) (nt a) /\ (i <= ni a /\ ni a <= nj a /\ nj a <= j) /\ (B <= nB a /\ nB a + ksize (nt a) <= B + ksize t) /\
  (ni a < nj a -> a = mkNd s i j t B par ppos ch esc \/ i < nlab a < j).
Proof.
  intro H. induction H as [s i Hc|s i j g l r Hc Hij Hg Hl IHl Hr IHr]; intros B par ppos ch esc a Ha; cbn [all] in Ha.
  - destruct Ha as [<-|[]]. cbn. split; [constructor; exact Hc|]. split; [lia|]. split; [lia|]. auto.
  - pose proof (proj1 Hg) as Hg1. pose proof (ksize_pos l). pose proof (ksize_pos r). destruct Ha as [<-|Ha].
    + cbn [ns ni nj nt nB ksize]. split; [constructor; auto|]. split; [lia|]. split; [lia|]. auto.
    + apply in_app_or in Ha. cbn [ksize]. destruct Ha as [Ha|Ha].
      * destruct (IHl _ _ _ _ _ _ Ha) as (A & B' & C & D). split; [exact A|]. split; [lia|]. split; [lia|]. intro X. right. destruct (D X) as [->|Y]; unfold nlab in *; cbn [lab ns ni nj] in *; lia.
      * destruct (IHr _ _ _ _ _ _ Ha) as (A & B' & C & D). split; [exact A|]. split; [lia|]. split; [lia|]. intro X. right. destruct (D X) as [->|Y]; unfold nlab in *; cbn [lab ns ni nj] in *; lia.
Qed.
Lemma uniq_lab {s i j t} : shape s i j t -> forall B par ppos ch esc a b, In a (all t s i j B par ppos ch esc) -> In b (all t s i j B par ppos ch esc) ->
  ni a < nj a -> ni b < nj b -> nlab a = nlab b -> a = b.
Proof.
  intro H. induction H as [s i Hc|s i j g l r Hc Hij Hg Hl IHl Hr IHr]; intros B par ppos ch esc a b Ha Hb Ta Tb E; cbn [all] in Ha, Hb.
  - destruct Ha as [<-|[]]. cbn in Ta. lia.
  - pose proof (proj1 Hg) as Hg1.
    assert (XL : forall c, In c (all l true i g (B + 1) (lab s i j) B (lab s i j :: ch) (B + 1 + ksize l)) -> ni c < nj c -> i < nlab c <= g).
    { intros c Hc' Tc. destruct (all_in Hl _ _ _ _ _ _ Hc') as (_ & P & _ & D). destruct (D Tc) as [->|Y]; [unfold nlab in *; cbn in *; lia|unfold nlab in *; lia]. }
    assert (XR : forall c, In c (all r false (g + 1) j (B + 1 + ksize l) (lab s i j) B [] esc) -> ni c < nj c -> g < nlab c < j).
    { intros c Hc' Tc. destruct (all_in Hr _ _ _ _ _ _ Hc') as (_ & P & _ & D). destruct (D Tc) as [->|Y]; [unfold nlab in *; cbn in *; lia|unfold nlab in *; lia]. }
    assert (X0 : lab s i j = i \/ lab s i j = j) by (destruct s; auto).
    destruct Ha as [<-|Ha]; destruct Hb as [<-|Hb]; [reflexivity| | |].
    + change (nlab (mkNd s i j (KN s i j g l r) B par ppos ch esc)) with (lab s i j) in E. apply in_app_or in Hb. destruct Hb as [Hb|Hb]; [specialize (XL b Hb Tb)|specialize (XR b Hb Tb)]; lia.
    + change (nlab (mkNd s i j (KN s i j g l r) B par ppos ch esc)) with (lab s i j) in E. apply in_app_or in Ha. destruct Ha as [Ha|Ha]; [specialize (XL a Ha Ta)|specialize (XR a Ha Ta)]; lia.
    + apply in_app_or in Ha. apply in_app_or in Hb. destruct Ha as [Ha|Ha]; destruct Hb as [Hb|Hb]; [eapply IHl; eassumption| | |eapply IHr; eassumption]; exfalso.
      * specialize (XL a Ha Ta). specialize (XR b Hb Tb). lia.
      * specialize (XR a Ha Ta). specialize (XL b Hb Tb). lia.
Qed.
Lemma uniq_leaf {s i j t} : shape s i j t -> forall B par ppos ch esc a b, In a (all t s i j B par ppos ch esc) -> In b (all t s i j B par ppos ch esc) ->
  ni a = nj a -> ni b = nj b -> ni a = ni b -> a = b.
Proof.
  intro H. induction H as [s i Hc|s i j g l r Hc Hij Hg Hl IHl Hr IHr]; intros B par ppos ch esc a b Ha Hb Ta Tb E; cbn [all] in Ha, Hb.
  - destruct Ha as [<-|[]]. destruct Hb as [<-|[]]. reflexivity.
  - destruct Ha as [<-|Ha]; [cbn in Ta; lia|]. destruct Hb as [<-|Hb]; [cbn in Tb; lia|].
    apply in_app_or in Ha. apply in_app_or in Hb. destruct Ha as [Ha|Ha]; destruct Hb as [Hb|Hb]; [eapply IHl; eassumption| | |eapply IHr; eassumption]; exfalso.
    + destruct (all_in Hl _ _ _ _ _ _ Ha) as (_ & P & _). destruct (all_in Hr _ _ _ _ _ _ Hb) as (_ & Q & _). lia.
    + destruct (all_in Hr _ _ _ _ _ _ Ha) as (_ & P & _). destruct (all_in Hl _ _ _ _ _ _ Hb) as (_ & Q & _). lia.
Qed.
Lemma uniq_pos {s i j t} : shape s i j t -> forall B par ppos ch esc a b, In a (all t s i j B par ppos ch esc) -> In b (all t s i j B par ppos ch esc) -> nB a = nB b -> a = b.
Proof.
  intro H. induction H as [s i Hc|s i j g l r Hc Hij Hg Hl IHl Hr IHr]; intros B par ppos ch esc a b Ha Hb E; cbn [all] in Ha, Hb.
  - destruct Ha as [<-|[]]. destruct Hb as [<-|[]]. reflexivity.
  - assert (XL : forall c, In c (all l true i g (B + 1) (lab s i j) B (lab s i j :: ch) (B + 1 + ksize l)) -> B < nB c < B + 1 + ksize l).
    { intros c Hc'. destruct (all_in Hl _ _ _ _ _ _ Hc') as (_ & _ & P & _). pose proof (ksize_pos (nt c)). lia. }
    assert (XR : forall c, In c (all r false (g + 1) j (B + 1 + ksize l) (lab s i j) B [] esc) -> B + 1 + ksize l <= nB c).
    { intros c Hc'. destruct (all_in Hr _ _ _ _ _ _ Hc') as (_ & _ & P & _). lia. }
    pose proof (ksize_pos l). destruct Ha as [<-|Ha]; destruct Hb as [<-|Hb]; [reflexivity| | |]; cbn [nB] in E.
    + apply in_app_or in Hb. destruct Hb as [Hb|Hb]; [specialize (XL b Hb)|specialize (XR b Hb)]; lia.
    + apply in_app_or in Ha. destruct Ha as [Ha|Ha]; [specialize (XL a Ha)|specialize (XR a Ha)]; lia.
    + apply in_app_or in Ha. apply in_app_or in Hb. destruct Ha as [Ha|Ha]; destruct Hb as [Hb|Hb]; [eapply IHl; eassumption| | |eapply IHr; eassumption]; exfalso.
      * specialize (XL a Ha). specialize (XR b Hb). lia.
      * specialize (XR a Ha). specialize (XL b Hb). lia.
Qed.
Lemma cover_leaf {s i j t} : shape s i j t -> forall B par ppos ch esc k, i <= k <= j -> exists a, In a (all t s i j B par ppos ch esc) /\ ni a = k /\ nj a = k.
Proof.
  intro H. induction H as [s i Hc|s i j g l r Hc Hij Hg Hl IHl Hr IHr]; intros B par ppos ch esc k Hk; cbn [all].
  - eexists. split; [left; reflexivity|]. cbn. lia.
  - destruct (Z_le_gt_dec k g).
    + destruct (IHl (B + 1) (lab s i j) B (lab s i j :: ch) (B + 1 + ksize l) k ltac:(lia)) as (a & Ha & X). exists a. split; [right; apply in_or_app; auto|exact X].
    + destruct (IHr (B + 1 + ksize l) (lab s i j) B [] esc k ltac:(lia)) as (a & Ha & X). exists a. split; [right; apply in_or_app; auto|exact X].
Qed.
Lemma labels_perm {s i j t} : shape s i j t -> Permutation (labels t) (if s then zr (i + 1) (j + 1) else zr i j).
Proof.
  intro H. induction H as [s i Hc|s i j g l r Hc Hij Hg Hl IHl Hr IHr]; cbn [labels]; [destruct s; rewrite zr_nil by lia; constructor|]. pose proof (proj1 Hg).
  assert (P : Permutation (labels l ++ labels r) (zr (i + 1) j)) by (rewrite IHl, IHr, zr_app by lia; reflexivity). rewrite P. destruct s; cbn [lab].
  - rewrite zr_snoc by lia. apply Permutation_cons_append.
  - rewrite (zr_cons i j) by lia. reflexivity.
Qed.
Lemma labels_all {s i j t} : shape s i j t -> forall B par ppos ch esc x, In x (labels t) -> exists a, In a (all t s i j B par ppos ch esc) /\ ni a < nj a /\ nlab a = x.
Proof.
  intro H. induction H as [s i Hc|s i j g l r Hc Hij Hg Hl IHl Hr IHr]; intros B par ppos ch esc x Hx; cbn [labels] in Hx; [destruct Hx|]. destruct Hx as [<-|Hx].
  - eexists. split; [apply all_head|]. cbn. auto.
  - apply in_app_or in Hx. cbn [all]. destruct Hx as [Hx|Hx].
    + destruct (IHl (B + 1) (lab s i j) B (lab s i j :: ch) (B + 1 + ksize l) x Hx) as (a & Ha & X). exists a. split; [right; apply in_or_app; auto|exact X].
    + destruct (IHr (B + 1 + ksize l) (lab s i j) B [] esc x Hx) as (a & Ha & X). exists a. split; [right; apply in_or_app; auto|exact X].
Qed.
Lemma lc_out {s i j t} : shape s i j t -> forall k, k < i \/ j <= k -> lc t k = 0.
Proof.
  intro H. induction H as [s i Hc|s i j g l r Hc Hij Hg Hl IHl Hr IHr]; intros k Hk; cbn [lc]; [reflexivity|]. pose proof (proj1 Hg). rewrite IHl, IHr by lia. destruct (Z.eqb_spec i k); lia.
Qed.

(** offsets *)
Variable depth : Z -> Z.
Variable off : Z -> Z.
Hypothesis off_succ : forall k, 0 <= k < n -> off (k + 1) = off k + depth k.
Definition counts (t : ktree) (i j A : Z) : Prop := forall k, i <= k <= j -> depth k = 1 + lc t k + (if k =? i then A else 0).
Lemma counts_left {s i j g l r A} : shape s i j (KN s i j g l r) -> counts (KN s i j g l r) i j A -> counts l i g (A + 1).
Proof.
  intros H C k Hk. inversion H; subst. match goal with X : split _ _ _ _ |- _ => pose proof (proj1 X) end. rewrite C by lia. cbn [lc]. rewrite (lc_out (s := false) (i := g + 1) (j := j) (t := r)) by (auto; lia).
  destruct (Z.eqb_spec k i); destruct (Z.eqb_spec i k); lia.
Qed.
Lemma counts_right {s i j g l r A} : shape s i j (KN s i j g l r) -> counts (KN s i j g l r) i j A -> counts r (g + 1) j 0.
Proof.
  intros H C k Hk. inversion H; subst. match goal with X : split _ _ _ _ |- _ => pose proof (proj1 X) end. rewrite C by lia. cbn [lc]. rewrite (lc_out (s := true) (i := i) (j := g) (t := l)) by (auto; lia).
  destruct (Z.eqb_spec k i); destruct (Z.eqb_spec i k); destruct (k =? g + 1); lia.
Qed.
Lemma off_sub {s i j t} : shape s i j t -> forall A, counts t i j A -> off (j + 1) = off i + A + ksize t.
Proof.
  intro H. induction H as [s i Hc|s i j g l r Hc Hij Hg Hl IHl Hr IHr]; intros A C; cbn [ksize].
  - pose proof (cx_rng _ _ _ _ Hc). rewrite off_succ by lia. rewrite C by lia. cbn [lc]. rewrite Z.eqb_refl. lia.
  - assert (Hs : shape s i j (KN s i j g l r)) by (constructor; auto). rewrite (IHr 0 (counts_right Hs C)). rewrite (IHl (A + 1) (counts_left Hs C)). lia.
Qed.
Lemma pos_ok {s i j t} : shape s i j t -> forall B par ppos ch esc a, counts t i j (Z.of_nat (length ch)) -> B = off i + Z.of_nat (length ch) -> In a (all t s i j B par ppos ch esc) ->
  nB a = off (ni a) + Z.of_nat (length (nch a)) /\ counts (nt a) (ni a) (nj a) (Z.of_nat (length (nch a))).
Proof.
  intro H. induction H as [s i Hc|s i j g l r Hc Hij Hg Hl IHl Hr IHr]; intros B par ppos ch esc a C EB Ha; cbn [all] in Ha.
  - destruct Ha as [<-|[]]. auto.
  - assert (Hs : shape s i j (KN s i j g l r)) by (constructor; auto). destruct Ha as [<-|Ha]; [auto|]. pose proof (counts_left Hs C) as CL. pose proof (counts_right Hs C) as CR. apply in_app_or in Ha. destruct Ha as [Ha|Ha].
    + eapply IHl; [| |exact Ha]; cbn [length]; [intros k Hk; rewrite CL by exact Hk; destruct (k =? i); lia|lia].
    + eapply IHr; [| |exact Ha]; cbn [length]; [exact CR|]. pose proof (off_sub Hl _ CL). lia.
Qed.
Lemma esc_ok {s i j t} : shape s i j t -> forall B par ppos ch esc a, counts t i j (Z.of_nat (length ch)) -> B = off i + Z.of_nat (length ch) -> (j < n - 1 -> esc = off (j + 1)) -> (j = n - 1 -> esc = -1) ->
  In a (all t s i j B par ppos ch esc) -> (nj a < n - 1 -> nesc a = off (nj a + 1)) /\ (nj a = n - 1 -> nesc a = -1).
Proof.
  intro H. induction H as [s i Hc|s i j g l r Hc Hij Hg Hl IHl Hr IHr]; intros B par ppos ch esc a C EB E1 E2 Ha; cbn [all] in Ha.
  - destruct Ha as [<-|[]]. auto.
  - assert (Hs : shape s i j (KN s i j g l r)) by (constructor; auto). destruct Ha as [<-|Ha]; [auto|]. pose proof (counts_left Hs C) as CL. pose proof (counts_right Hs C) as CR. pose proof (proj1 Hg). pose proof (shape_rng _ Hs).
    pose proof (off_sub Hl _ CL) as OS. apply in_app_or in Ha. destruct Ha as [Ha|Ha].
    + eapply IHl; [| | | |exact Ha]; cbn [length]; [intros k Hk; rewrite CL by exact Hk; destruct (k =? i); lia|lia|lia|lia].
    + eapply IHr; [| | | |exact Ha]; cbn [length]; [exact CR|lia|exact E1|exact E2].
Qed.
End Tree.

(** links *)
Section Links.
Variable mcs : list Z.
Variable L : list nd.
Definition par_ok (a : nd) : Prop := (npar a = -1 /\ nppos a = -1) \/ exists b, In b L /\ ni b < nj b /\ nlab b = npar a /\ nB b = nppos a.
Definition chain_ok (a : nd) : Prop :=
  (forall p q, nch a = p :: q -> npar a = p) /\
  forall q p, nth_error (nch a) q = Some p -> exists b, In b L /\ ni b < nj b /\ nlab b = p /\ nB b = nB a - 1 - Z.of_nat q /\ kspine (nt b) = Z.of_nat q + 1 + kspine (nt a) /\
    ni b = ni a /\ forall p', nth_error (nch a) (S q) = Some p' -> npar b = p'.
Lemma links_ok {s i j t} : shape mcs s i j t -> forall B par ppos ch esc, incl (all t s i j B par ppos ch esc) L -> par_ok (mkNd s i j t B par ppos ch esc) -> chain_ok (mkNd s i j t B par ppos ch esc) ->
  forall a, In a (all t s i j B par ppos ch esc) -> par_ok a /\ chain_ok a.
Proof.
  intro H. induction H as [s i Hc|s i j g l r Hc Hij Hg Hl IHl Hr IHr]; intros B par ppos ch esc Hi Hp Hch a Ha; cbn [all] in Ha.
  - destruct Ha as [<-|[]]. auto.
  - destruct Ha as [<-|Ha]; [auto|]. assert (H0 : In (mkNd s i j (KN s i j g l r) B par ppos ch esc) L) by (apply Hi; apply all_head). apply in_app_or in Ha. destruct Ha as [Ha|Ha].
    + eapply IHl; [intros x Hx; apply Hi; cbn [all]; right; apply in_or_app; left; exact Hx| | |exact Ha].
      * right. exists (mkNd s i j (KN s i j g l r) B par ppos ch esc). cbn. auto.
      * split; [intros p q E; injection E as <- _; reflexivity|]. intros [|q] p E; cbn [nth_error nch] in E.
        -- injection E as <-. exists (mkNd s i j (KN s i j g l r) B par ppos ch esc). split; [exact H0|]. split; [exact Hij|]. split; [reflexivity|]. cbn [nB nt kspine ni]. split; [lia|]. split; [lia|]. split; [reflexivity|].
           intros p' E'. cbn [nth_error nch npar] in E' |- *. destruct ch as [|p0 ch']; [discriminate|]. injection E' as <-. exact (proj1 Hch p0 ch' eq_refl).
        -- destruct (proj2 Hch q p E) as (b & A1 & A2 & A3 & A4 & A5 & A6 & A7). exists b. split; [exact A1|]. split; [exact A2|]. split; [exact A3|]. cbn [nB nt kspine ni nch] in *. split; [lia|]. split; [lia|]. split; [exact A6|].
           intros p' E'. apply A7. exact E'.
    + eapply IHr; [intros x Hx; apply Hi; cbn [all]; right; apply in_or_app; right; exact Hx| | |exact Ha].
      * right. exists (mkNd s i j (KN s i j g l r) B par ppos ch esc). cbn. auto.
      * split; [intros p q E; discriminate|]. intros [|q] p E; discriminate.
Qed.
End Links.
