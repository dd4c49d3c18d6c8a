(** Scatter and gather as one pairing. *)
From Coq Require Import QArith Qround Lqa Qfield.
From Verif Require Import Prelude KernModel KernSpec KernProofs KernProofs2 KernProofs3 MpmModel MpmSpec MpmProofs.
From Verif Require SgModel.
Import SgModel(coordT, find_key, sentinel_v).
Local Open Scope Q_scope.

Lemma total_nonneg_zero {A} (f : A -> Q) l : (forall x, In x l -> 0 <= f x) -> total f l == 0 -> forall x, In x l -> f x == 0.
Proof.
  induction l as [|a l IH]; intros Hp Hz x Hx; [destruct Hx|].
  rewrite total_cons in Hz.
  assert (0 <= total f l).
  { clear - Hp. induction l as [|b l IH]; [apply Qle_refl|]. rewrite total_cons.
    assert (0 <= f b) by (apply Hp; right; left; reflexivity).
    assert (0 <= total f l) by (apply IH; intros x [->|Hx]; apply Hp; [left; reflexivity|right; right; assumption]). lra. }
  assert (0 <= f a) by (apply Hp; left; reflexivity).
  destruct Hx as [->|Hx]; [lra|]. apply IH; auto; [|lra]. intros y Hy. apply Hp. right. assumption.
Qed.
Lemma total_nonneg {A} (f : A -> Q) l : (forall x, In x l -> 0 <= f x) -> 0 <= total f l.
Proof.
  induction l as [|b l IH]; intros Hp; [apply Qle_refl|]. rewrite total_cons.
  assert (0 <= f b) by (apply Hp; left; reflexivity).
  assert (0 <= total f l) by (apply IH; intros x Hx; apply Hp; right; assumption). lra.
Qed.
Lemma total_delta {A} (eqd : forall x y : A, {x = y} + {x <> y}) (f : A -> Q) (a : A) l : NoDup l -> In a l ->
  total (fun x => if eqd x a then f x else 0) l == f a.
Proof.
  induction 1 as [|b l N _ IH]; intros Ha; [destruct Ha|]. rewrite total_cons. destruct Ha as [->|Ha].
  - destruct (eqd a a); [|congruence]. rewrite total_zero; [ring|]. intros x Hx. destruct (eqd x a); [congruence|reflexivity].
  - destruct (eqd b a) as [->|]; [contradiction|]. rewrite IH by assumption. ring.
Qed.
Definition seqd (x y : Z * Z) : {x = y} + {x <> y}.
Proof. decide equality; apply Z.eq_dec. Defined.

(** one addition, and a list of them, seen through a test function *)
Definition pair (m : mem) (ch : nat) (psi : Z * Z -> Q) (sl : list (Z * Z)) : Q := total (fun s => m (fst s) ch (snd s) * psi s) sl.
Definition hit (ch : nat) (psi : Z * Z -> Q) (i : inc) : Q := if Nat.eqb (ich i) ch then iq i * psi (ib i, ic i) else 0.
Lemma push1 m ch psi sl i : NoDup sl -> In (ib i, ic i) sl -> pair (apply_inc m i) ch psi sl == pair m ch psi sl + hit ch psi i.
Proof.
  intros N Hin. unfold pair, hit.
  rewrite (total_ext _ (fun s => m (fst s) ch (snd s) * psi s + (if seqd s (ib i, ic i) then (if Nat.eqb (ich i) ch then iq i * psi s else 0) else 0))).
  - rewrite total_plus, (total_delta seqd (fun s => if Nat.eqb (ich i) ch then iq i * psi s else 0)) by assumption. reflexivity.
  - intros [b c] _. unfold apply_inc. cbn [fst snd]. destruct (seqd (b, c) (ib i, ic i)) as [E|E].
    + injection E as -> ->. rewrite !Z.eqb_refl. cbn [andb]. rewrite andb_true_r, Nat.eqb_sym. destruct (Nat.eqb _ _); ring.
    + destruct (Z.eqb_spec b (ib i)) as [->|]; cbn [andb]; [|ring]. destruct (Nat.eqb ch (ich i)); cbn [andb]; [|ring].
      destruct (Z.eqb_spec c (ic i)) as [->|]; [congruence|ring].
Qed.
Lemma push ch psi sl : NoDup sl -> forall order m, Forall (fun i => In (ib i, ic i) sl) order ->
  pair (fold_left apply_inc order m) ch psi sl == pair m ch psi sl + total (hit ch psi) order.
Proof.
  intros N order. induction order as [|i order IH]; intros m F; cbn [fold_left]; [unfold total; cbn; ring|].
  inversion F; subst. rewrite IH, push1, total_cons by assumption. ring.
Qed.

Lemma all_some_in {A B} (f : A -> option (list B)) l r : all_some f l = Some r ->
  (forall x, In x l -> exists a, f x = Some a) /\ (forall b, In b r <-> exists x a, In x l /\ f x = Some a /\ In b a).
Proof.
  revert r; induction l as [|x l IH]; cbn; intros r.
  - intros E; injection E as <-. split; [intros ? []|]. split; [intros []|intros (x & a & [] & _)].
  - destruct (f x) as [a|] eqn:Ex; [|discriminate]. destruct (all_some f l) as [b|]; [|discriminate]. intros E; injection E as <-.
    destruct (IH b eq_refl) as [I1 I2]. split.
    + intros y [<-|Hy]; [eauto|auto].
    + intros e. rewrite in_app_iff, I2. split.
      * intros [He|(y & a' & H1 & H2 & H3)]; [exists x, a; auto|exists y, a'; auto].
      * intros (y & a' & [<-|H1] & H2 & H3); [left; congruence|right; eauto].
Qed.
Lemma all_some_total {A B} (f : A -> option (list B)) (g : B -> Q) (h : A -> Q) l r : all_some f l = Some r ->
  (forall x a, In x l -> f x = Some a -> total g a == h x) -> total g r == total h l.
Proof.
  revert r; induction l as [|x l IH]; cbn [all_some]; intros r.
  - intros E _; injection E as <-. reflexivity.
  - destruct (f x) as [a|] eqn:Ex; [|discriminate]. destruct (all_some f l) as [b|]; [|discriminate]. intros E H; injection E as <-.
    assert (E1 : total g a == h x) by (apply H; [left; reflexivity|assumption]).
    assert (E2 : total g b == total h l) by (apply IH; [reflexivity|intros y a' Hy; apply H; right; assumption]).
    rewrite total_app, total_cons, E1, E2. reflexivity.
Qed.
Lemma all_some_ok {A B} (f : A -> option (list B)) l : (forall x, In x l -> f x <> None) -> exists r, all_some f l = Some r.
Proof.
  induction l as [|x l IH]; cbn; intros H; [eauto|]. destruct IH as [r ->]; [auto|].
  destruct (f x) as [a|] eqn:Ex; [eauto|]. exfalso. apply (H x); auto.
Qed.

Section T.
Variables (k : Z) (keys : list coordT) (dx dt : Q).
Hypothesis Hk : (0 <= k)%Z.
Hypothesis Hx : ~ dx == 0.
Notation ar p := (make_local_arena dx (px p)).
Notation sl := (slots k keys).
Definition slotd (p : particle) (loc : list nat) : Z * Z :=
  match slot_of k keys (coord (ar p) loc) with Some s => s | None => (0, 0)%Z end.
Section P.
Variable stress : particle -> vec.
Definition contrib (p : particle) (e : nat) : Q := stress p e * (- dt) * (4 * (1 / dx) * (1 / dx)).
(** value and gradient of what channel ch carries *)
Definition chal (p : particle) (ch : nat) : Q :=
  match ch with O => pm p | 1%nat | 2%nat | 3%nat => pm p * pv p (ch - 1)%nat | _ => 0 end.
Definition chbe (p : particle) (ch : nat) : vec :=
  match ch with O => fun _ => 0 | 1%nat | 2%nat | 3%nat => fun a => pm p * pC p (3 * a + (ch - 1))%nat
  | 4%nat | 5%nat | 6%nat => fun a => contrib p (3 * a + (ch - 4))%nat | _ => fun _ => 0 end.
Definition chq (p : particle) (ch : nat) (loc : list nat) : Q := weight (ar p) loc * aff dx (px p) (chal p ch) (chbe p ch) loc.
Lemma node_total p loc a ch psi : p2g_node k keys dx dt stress p loc = Some a ->
  total (hit ch psi) a == chq p ch loc * psi (slotd p loc).
Proof.
  unfold p2g_node, slotd. destruct (slot_of k keys _) as [[b c]|]; [|discriminate]. intros E; injection E as <-.
  unfold total, chq, aff. cbn [axes flat_map app map]. unfold hit, qsum, contrib.
  do 7 (destruct ch as [|ch]; [cbn - [Qmult Qplus Qdiv Qopp weight diff make_local_arena]; unfold contrib; ring|]).
  cbn - [Qmult Qplus Qdiv Qopp weight diff make_local_arena]. ring.
Qed.
Lemma incs_total ps l ch psi : p2g_incs k keys dx dt stress ps = Some l ->
  total (hit ch psi) l == total (fun p => total (fun loc => chq p ch loc * psi (slotd p loc)) arange) ps.
Proof.
  intros E. apply (all_some_total _ _ _ _ _ E). intros p a _ Ea. apply (all_some_total _ _ _ _ _ Ea).
  intros loc a' _ E'. apply (node_total _ _ _ _ _ E').
Qed.
Lemma incs_slots ps l : p2g_incs k keys dx dt stress ps = Some l -> Forall (fun i => In (ib i, ic i) sl) l.
Proof.
  intros E. apply Forall_forall. intros i Hi. apply (all_some_in _ _ _ E) in Hi as (p & a & _ & Ea & Hi).
  apply (all_some_in _ _ _ Ea) in Hi as (loc & a' & _ & E' & Hi).
  unfold p2g_node in E'. destruct (slot_of k keys (coord (ar p) loc)) as [[b c]|] eqn:Es; [|discriminate]. injection E' as <-.
  apply (slot_spec k Hk) in Es as [Hs _]; [|reflexivity].
  cbn in Hi. repeat (destruct Hi as [<-|Hi]; [exact Hs|]). destruct Hi.
Qed.
Lemma incs_active ps l p loc : p2g_incs k keys dx dt stress ps = Some l -> In p ps -> In loc arange ->
  slot_of k keys (coord (ar p) loc) = Some (slotd p loc).
Proof.
  intros E Hp Hl. destruct (all_some_in _ _ _ E) as [A _]. destruct (A p Hp) as [a Ea].
  destruct (all_some_in _ _ _ Ea) as [B _]. destruct (B loc Hl) as [a' E']. unfold p2g_node in E'. unfold slotd.
  destruct (slot_of k keys (coord (ar p) loc)); [reflexivity|discriminate].
Qed.
(** the scatter, through any test function *)
Theorem scatter ps m m' ch psi : p2g_run k keys dx dt stress ps m m' ->
  pair m' ch psi sl == pair m ch psi sl + total (fun p => total (fun loc => chq p ch loc * psi (slotd p loc)) arange) ps.
Proof.
  intros (l & order & E & P & ->). pose proof (incs_slots _ _ E) as F.
  rewrite (push ch psi sl (slots_nodup k keys)) by (rewrite <- P; exact F).
  rewrite <- (total_perm _ _ _ P), (incs_total _ _ _ _ E). reflexivity.
Qed.
Lemma run_active ps m m' p loc : p2g_run k keys dx dt stress ps m m' -> In p ps -> In loc arange ->
  slot_of k keys (coord (ar p) loc) = Some (slotd p loc).
Proof. intros (l & order & E & _) Hp Hl. apply (incs_active _ _ _ _ E Hp Hl). Qed.
Lemma scatter1 ps m m' ch : p2g_run k keys dx dt stress ps m m' ->
  grid_total m' ch sl == grid_total m ch sl + total (fun p => chal p ch) ps.
Proof.
  intros R. pose proof (scatter _ _ _ ch (fun _ => 1) R) as S. unfold grid_total.
  unfold pair in S. rewrite (total_ext _ (fun s => m' (fst s) ch (snd s) * 1)) by (intros; ring). rewrite S.
  rewrite (total_ext (fun s => m (fst s) ch (snd s)) (fun s => m (fst s) ch (snd s) * 1)) by (intros; ring).
  apply Qplus_comp; [reflexivity|]. apply total_ext. intros p _.
  rewrite (total_ext _ (fun loc => weight (ar p) loc * aff dx (px p) (chal p ch) (chbe p ch) loc)) by (intros; unfold chq; ring).
  apply A0.
Qed.
Lemma moment ps m m' ch d : p2g_run k keys dx dt stress ps m m' -> (d < 3)%nat ->
  pair m' ch (fun s => node_pos k keys dx (fst s) (snd s) d) sl == pair m ch (fun s => node_pos k keys dx (fst s) (snd s) d) sl
   + total (fun p => chal p ch * px p d + chbe p ch d * (dx * dx * (1#4))) ps.
Proof.
  intros R Hd. rewrite (scatter _ _ _ ch _ R). apply Qplus_comp; [reflexivity|]. apply total_ext. intros p Hp.
  rewrite (total_ext _ (fun loc => px p d * (weight (ar p) loc * aff dx (px p) (chal p ch) (chbe p ch) loc)
                                   + weight (ar p) loc * aff dx (px p) (chal p ch) (chbe p ch) loc * diff (ar p) loc d)).
  - rewrite total_plus, total_scale, A0, A1 by assumption. ring.
  - intros loc Hl. pose proof (run_active _ _ _ _ _ R Hp Hl) as Es. destruct (slotd p loc) as [b c] eqn:Eb.
    apply (slot_spec k Hk) in Es as [_ Hn]; [|reflexivity]. cbn [fst snd]. rewrite (Hn dx d Hd), node_diff by assumption. unfold chq. ring.
Qed.
(** cells without mass carry no momentum when masses are not negative *)
Lemma no_mass ps m m' b c d : p2g_run k keys dx dt stress ps m m' -> Forall (fun p => 0 <= pm p) ps ->
  (forall b ch c, m b ch c == 0) -> (d < 3)%nat -> In (b, c) sl -> m' b 0%nat c == 0 -> m' b (1 + d)%nat c == 0.
Proof.
  intros R Fm Hz Hd Hin H0. set (psi := fun s => if seqd s (b, c) then 1 else 0).
  assert (V : forall mm ch, pair mm ch psi sl == mm b ch c).
  { intros mm ch. unfold pair. rewrite (total_ext _ (fun s => if seqd s (b, c) then mm (fst s) ch (snd s) else 0)).
    - apply (total_delta seqd (fun s => mm (fst s) ch (snd s))); [apply slots_nodup|assumption].
    - intros s _. unfold psi. destruct (seqd s (b, c)); ring. }
  assert (S : forall ch, m' b ch c == total (fun p => total (fun loc => chq p ch loc * psi (slotd p loc)) arange) ps).
  { intros ch. rewrite <- (V m' ch), (scatter _ _ _ ch psi R), V, Hz. ring. }
  assert (Pp : forall s, 0 <= psi s) by (intros s; unfold psi; destruct (seqd s (b, c)); lra).
  rewrite S. apply total_zero. intros p Hp. apply total_zero. intros loc Hl.
  assert (Z0 : weight (ar p) loc * pm p * psi (slotd p loc) == 0).
  { rewrite S in H0. rewrite Forall_forall in Fm.
    assert (N : forall q loc', In q ps -> 0 <= chq q 0 loc' * psi (slotd q loc')).
    { intros q loc' Hq. unfold chq, aff. cbn [chal chbe].
      setoid_replace (weight (ar q) loc' * (pm q + (0 * diff (ar q) loc' 0%nat + 0 * diff (ar q) loc' 1%nat + 0 * diff (ar q) loc' 2%nat)))
        with (weight (ar q) loc' * pm q) by ring.
      apply Qmult_le_0_compat; [apply Qmult_le_0_compat; [apply weight_nonneg|auto]|auto]. }
    pose proof (total_nonneg_zero _ _ (fun q Hq => total_nonneg _ _ (fun loc' _ => N q loc' Hq)) H0 p Hp) as Z1.
    pose proof (total_nonneg_zero _ _ (fun loc' _ => N p loc' Hp) Z1 loc Hl) as Z2. cbn beta in Z2.
    rewrite <- Z2. unfold chq, aff. cbn [chal chbe]. ring. }
  unfold chq.
  assert (G : exists g, aff dx (px p) (chal p (1 + d)) (chbe p (1 + d)) loc == pm p * g).
  { exists (pv p d + (pC p (3 * 0 + d)%nat * diff (ar p) loc 0%nat + pC p (3 * 1 + d)%nat * diff (ar p) loc 1%nat + pC p (3 * 2 + d)%nat * diff (ar p) loc 2%nat)).
    unfold aff. destruct d as [|[|[|d]]]; try lia; cbn [chal chbe Nat.add Nat.sub Nat.mul]; ring. }
  destruct G as [g ->]. setoid_replace (weight (ar p) loc * (pm p * g) * psi (slotd p loc)) with (weight (ar p) loc * pm p * psi (slotd p loc) * g) by ring.
  rewrite Z0. ring.
Qed.
End P.

(** ** The grid update *)
Definition upd_cell (extf : vec) (m : mem) (b : Z) (ch : nat) (c : Z) : Q :=
  if Qeq_bool (m b 0%nat c) 0 then m b ch c
  else if Nat.leb 1 ch && Nat.leb ch 3 then m b ch c * (1 / m b 0%nat c) + extf (ch - 1)%nat * dt else m b ch c.
Lemma grid_velocity_cell extf order : NoDup order -> forall m b ch c,
  grid_velocity dt extf m order b ch c = if in_dec seqd (b, c) order then upd_cell extf m b ch c else m b ch c.
Proof.
  induction 1 as [|[b0 c0] order N _ IH]; intros m b ch c; [reflexivity|].
  change (grid_velocity dt extf m ((b0, c0) :: order)) with (grid_velocity dt extf (block_velocity dt extf m (b0, c0)) order).
  rewrite IH. destruct (in_dec seqd (b, c) order) as [Hi|Hi]; destruct (in_dec seqd (b, c) ((b0, c0) :: order)) as [Hj|Hj].
  - assert (D : (b, c) <> (b0, c0)) by congruence.
    assert (Same : forall ch, block_velocity dt extf m (b0, c0) b ch c = m b ch c).
    { intros ch'. unfold block_velocity. destruct (Qeq_bool _ _); [reflexivity|].
      destruct (Z.eqb_spec b b0) as [->|]; cbn [andb]; [|reflexivity]. destruct (Z.eqb_spec c c0) as [->|]; [congruence|reflexivity]. }
    unfold upd_cell. rewrite !Same. reflexivity.
  - exfalso. apply Hj. right. assumption.
  - destruct Hj as [E|]; [injection E as -> ->|contradiction].
    unfold block_velocity, upd_cell. destruct (Qeq_bool _ _); [reflexivity|]. rewrite !Z.eqb_refl. reflexivity.
  - unfold block_velocity. destruct (Qeq_bool _ _); [reflexivity|].
    destruct (Z.eqb_spec b b0) as [->|]; cbn [andb]; [|reflexivity]. destruct (Z.eqb_spec c c0) as [->|]; [|reflexivity].
    exfalso. apply Hj. left. reflexivity.
Qed.

(** ** The gather *)
Lemma fold_total {A} (f : A -> Q) l : forall a, fold_left (fun s n => s + f n) l a == a + total f l.
Proof. induction l as [|x l IH]; intros a; cbn [fold_left]; [unfold total; cbn; ring|]. rewrite IH, total_cons. ring. Qed.
Lemma nodes_total m p ns (f : Q -> vec -> vec -> Q) : g2p_nodes k keys dx m p = Some ns ->
  total (fun n => let '(W, x, v) := n in f W x v) ns
  == total (fun loc => f (weight (ar p) loc) (diff (ar p) loc) (fun d => m (fst (slotd p loc)) (1 + d)%nat (snd (slotd p loc)))) arange.
Proof.
  intros E. apply (all_some_total _ _ _ _ _ E). intros loc a _ Ea. unfold slotd.
  destruct (slot_of k keys (coord (ar p) loc)) as [[b c]|]; [|discriminate]. injection Ea as <-. exact (Qplus_0_r _).
Qed.
Notation vn m p loc d := (m (fst (slotd p loc)) (1 + d)%nat (snd (slotd p loc))).
Lemma g2p_spec eqs m p p' : g2p k keys dx dt eqs m p = Some p' ->
  pm p' = pm p /\
  (forall d, pv p' d == total (fun loc => weight (ar p) loc * vn m p loc d) arange) /\
  (forall e, pC p' e == 4 / (dx * dx) * total (fun loc => weight (ar p) loc * vn m p loc (e mod 3)%nat * diff (ar p) loc (e / 3)%nat) arange) /\
  (forall d, px p' d = px p d + pv p' d * dt) /\
  pJ p' = (if eqs then (1 + (pC p' 0%nat + pC p' 4%nat + pC p' 8%nat) * dt) * pJ p else pJ p) /\
  pF p' = (if eqs then pF p else mul3 (fun e => pC p' e * dt + (if Nat.eqb (Nat.land e 3) 0 then 1 else 0)) (pF p)).
Proof.
  unfold g2p. destruct (g2p_nodes k keys dx m p) as [ns|] eqn:E; [|discriminate]. intros E'; injection E' as <-. cbn [pm px pv pC pJ pF].
  split; [reflexivity|]. split; [|split; [|split; [|split]]]; try reflexivity.
  - intros d.
    assert (X : forall l a, fold_left (fun v (n : Q * vec * vec) => let '(W, _, vi) := n in v + vi d * W) l a == a + total (fun n => let '(W, x, v) := n in v d * W) l).
    { induction l as [|[[W x] v] l IH]; intros a; cbn [fold_left]; [unfold total; cbn; ring|]. rewrite IH, total_cons. ring. }
    rewrite X, (nodes_total _ _ _ (fun W x v => v d * W) E), Qplus_0_l. apply total_ext. intros; ring.
  - intros e. set (D := 4 * (1 / dx) * (1 / dx)).
    assert (X : forall l a, fold_left (fun v (n : Q * vec * vec) => let '(W, x, vi) := n in v + W * vi (e mod 3)%nat * x (e / 3)%nat * D) l a
       == a + total (fun n => let '(W, x, v) := n in W * v (e mod 3)%nat * x (e / 3)%nat * D) l).
    { induction l as [|[[W x] v] l IH]; intros a; cbn [fold_left]; [unfold total; cbn; ring|]. rewrite IH, total_cons. ring. }
    rewrite X, (nodes_total _ _ _ (fun W x v => W * v (e mod 3)%nat * x (e / 3)%nat * D) E), Qplus_0_l.
    rewrite <- total_scale. apply total_ext. intros loc _. unfold D. field. assumption.
Qed.
Lemma g2p_active eqs m p p' loc : g2p k keys dx dt eqs m p = Some p' -> In loc arange ->
  slot_of k keys (coord (ar p) loc) = Some (slotd p loc).
Proof.
  unfold g2p. destruct (g2p_nodes k keys dx m p) as [ns|] eqn:E; [|discriminate]. intros _ Hl.
  destruct (all_some_in _ _ _ E) as [A _]. destruct (A loc Hl) as [a Ea]. unfold slotd.
  destruct (slot_of k keys (coord (ar p) loc)) as [[b c]|]; [reflexivity|discriminate].
Qed.
Lemma g2p_all_forall2 eqs m ps ps' : g2p_all k keys dx dt eqs m ps = Some ps' ->
  Forall2 (fun p p' => g2p k keys dx dt eqs m p = Some p') ps ps'.
Proof.
  revert ps'; induction ps as [|p ps IH]; cbn; intros ps'; [intros E; injection E as <-; constructor|].
  destruct (g2p k keys dx dt eqs m p) as [p'|] eqn:E1; [|discriminate]. destruct (g2p_all k keys dx dt eqs m ps) as [r|]; [|discriminate].
  intros E; injection E as <-. constructor; auto.
Qed.
Lemma total_forall2 {A B} (R : A -> B -> Prop) (f : A -> Q) (g : B -> Q) l l' : Forall2 R l l' ->
  (forall a b, In a l -> R a b -> f a == g b) -> total f l == total g l'.
Proof.
  induction 1 as [|a b l l' r _ IH]; intros H; [reflexivity|]. rewrite !total_cons, (H a b), IH; auto; [reflexivity|intros; apply H; auto; right; assumption|left; reflexivity].
Qed.
(** gathering is the transpose of scattering mass *)
Lemma gather stress eqs ps m0 m1 m ps' d : p2g_run k keys dx dt stress ps m0 m1 -> (forall b ch c, m0 b ch c == 0) ->
  g2p_all k keys dx dt eqs m ps = Some ps' ->
  momentum d ps' == total (fun s => m1 (fst s) 0%nat (snd s) * m (fst s) (1 + d)%nat (snd s)) sl.
Proof.
  intros R Hz G. pose proof (scatter stress _ _ _ 0 (fun s => m (fst s) (1 + d)%nat (snd s)) R) as S.
  unfold pair at 1 in S. rewrite S. unfold pair. rewrite total_zero, Qplus_0_l by (intros; rewrite Hz; ring).
  symmetry. apply (total_forall2 _ _ _ _ _ (g2p_all_forall2 _ _ _ _ G)). intros p p' _ E.
  destruct (g2p_spec _ _ _ _ E) as (-> & V & _). rewrite V, <- total_scale. apply total_ext. intros loc _.
  unfold chq, aff. cbn [chal chbe]. ring.
Qed.
Lemma gather_angular stress eqs ps m0 m1 m ps' d : p2g_run k keys dx dt stress ps m0 m1 -> (forall b ch c, m0 b ch c == 0) ->
  g2p_all k keys dx dt eqs m ps = Some ps' -> (d < 3)%nat ->
  angular dx d ps' == total (fun s => m1 (fst s) 0%nat (snd s) * crossd (node_pos k keys dx (fst s) (snd s)) (fun e => m (fst s) (1 + e)%nat (snd s)) d) sl.
Proof.
  intros R Hz G Hd. set (psi := fun s : Z * Z => crossd (node_pos k keys dx (fst s) (snd s)) (fun e => m (fst s) (1 + e)%nat (snd s)) d).
  pose proof (scatter stress _ _ _ 0 psi R) as S.
  transitivity (pair m1 0 psi sl); [|reflexivity]. rewrite S. unfold pair. rewrite total_zero, Qplus_0_l by (intros; rewrite Hz; ring).
  symmetry. apply (total_forall2 _ _ _ _ _ (g2p_all_forall2 _ _ _ _ G)). intros p p' Hp E.
  destruct (g2p_spec _ _ _ _ E) as (-> & V & C & X & _).
  assert (N1 : (nxt d < 3)%nat) by (apply Nat.mod_upper_bound; lia).
  assert (N2 : (nxt2 d < 3)%nat) by (apply Nat.mod_upper_bound; lia).
  assert (Sp : dx * dx * (1#4) * spin p' d ==
    total (fun loc => weight (ar p) loc * vn m p loc (nxt2 d) * diff (ar p) loc (nxt d)) arange
    - total (fun loc => weight (ar p) loc * vn m p loc (nxt d) * diff (ar p) loc (nxt2 d)) arange).
  { unfold spin, affine_of. rewrite !C.
    replace ((nxt2 d + 3 * nxt d) mod 3)%nat with (nxt2 d) by (rewrite Nat.mul_comm, Nat.mod_add, Nat.mod_small by lia; reflexivity).
    replace ((nxt2 d + 3 * nxt d) / 3)%nat with (nxt d) by (rewrite Nat.mul_comm, Nat.div_add, Nat.div_small by lia; reflexivity).
    replace ((nxt d + 3 * nxt2 d) mod 3)%nat with (nxt d) by (rewrite Nat.mul_comm, Nat.mod_add, Nat.mod_small by lia; reflexivity).
    replace ((nxt d + 3 * nxt2 d) / 3)%nat with (nxt2 d) by (rewrite Nat.mul_comm, Nat.div_add, Nat.div_small by lia; reflexivity).
    field. assumption. }
  assert (Cr : crossd (px p') (pv p') d == px p (nxt d) * pv p' (nxt2 d) - px p (nxt2 d) * pv p' (nxt d)).
  { unfold crossd. rewrite !X. ring. }
  rewrite Cr, Sp, !V.
  rewrite (total_ext _ (fun loc => pm p * ((px p (nxt d) * (weight (ar p) loc * vn m p loc (nxt2 d)) + - px p (nxt2 d) * (weight (ar p) loc * vn m p loc (nxt d)))
     + (weight (ar p) loc * vn m p loc (nxt2 d) * diff (ar p) loc (nxt d) + -1 * (weight (ar p) loc * vn m p loc (nxt d) * diff (ar p) loc (nxt2 d)))))).
  - rewrite total_scale, !total_plus, !total_scale. ring.
  - intros loc Hl. pose proof (g2p_active _ _ _ _ _ E Hl) as Es. unfold psi. destruct (slotd p loc) as [b c] eqn:Eb.
    apply (slot_spec k Hk) in Es as [_ Hn]; [|reflexivity]. cbn [fst snd]. unfold crossd. rewrite !Hn, !node_diff by assumption.
    unfold chq, aff. cbn [chal chbe]. ring.
Qed.
End T.
