(** C97: the invariant with a single waiting thread. *)
From Verif Require Import Prelude HashModel ParkModel ParkSpec ParkProofs ParkProofs2 CvModel CvSpec CvProofs.

Definition waiting (p : pc) : bool := match p with W1 | W2 | W2a | W2b | W3 _ | W4 _ | W5 => true | _ => false end.
Definition swp (p : pc) : bool := match p with N2 _ true | N3 _ true | N4 _ true => true | _ => false end.
Definition swept (f : nat -> pc) : Prop := exists u, swp (f u) = true.
Lemma sweeping_swept s : sweeping s <-> swept (thr s).
Proof.
  split.
  - intros (u & h & [E|[E|E]]); exists u; now rewrite E.
  - intros (u & E). exists u. destruct (thr s u) as [| | | | | | | | | |h [|]|h [|]|h [|]]; try discriminate; exists h; auto.
Qed.
Definition pre (p : pc) : Z := match p with W2 | W2a | W2b => 1 | _ => 0 end.
Definition locks (p : pc) : bool := match p with W2a | W2b | N4 _ _ => true | _ => false end.
Definition entered (w : nat) (evs : list (nat * label)) : Prop := exists e1 e2, evs = e1 ++ (w, Enqueue) :: e2 /\ ~ In (w, Enqueue) e2.

Section Inv.
Variables (w : nat) (all : bool) (lot : nat) (addr : N).
Notation ours := (ours lot addr).
Definition wok (s : shared) (f : nat -> pc) (l : list nat) (evs : list (nat * label)) : Prop :=
  match f w with
  | W2b => seq s <> 0%N \/ swept f
  | W3 a | W4 a => (exists l', l = a :: l') /\ entered w evs /\ ((signalled (que s) a /\ notified w evs) \/ (sleeping (que s) a /\ (seq s <> 0%N \/ swept f)))
  | _ => True
  end.
Record inv (s : shared) (f : nat -> pc) (l : list nat) (evs : list (nat * label)) : Prop := Inv {
  i_chain : chain (qmem (que s)) (qlist (que s)) l;
  i_nodup : NoDup l;
  i_ours : ours (que s) l;
  i_count : (Z.of_nat (length l) + pre (f w) <= qcount (que s))%Z;
  i_enq : length l <= enqueues evs;
  i_one : forall t, t <> w -> waiting (f t) = false;
  i_lock : forall t, locks (f t) = true -> qlk s = Some t;
  i_w : wok s f l evs }.

Lemma enqueues_app evs e : enqueues (evs ++ [e]) = enqueues evs + (match snd e with Enqueue => 1 | _ => 0 end).
Proof. unfold enqueues. rewrite filter_app, app_length. cbn. destruct (snd e); reflexivity. Qed.
Lemma entered_app evs e : e <> (w, Enqueue) -> entered w evs -> entered w (evs ++ [e]).
Proof.
  intros N (e1 & e2 & -> & H). exists e1, (e2 ++ [e]). split; [now rewrite <- app_assoc|]. rewrite in_app_iff. intros [X|[X|[]]]; [auto|congruence].
Qed.
Lemma notified_app evs e : e <> (w, Enqueue) -> notified w evs -> notified w (evs ++ [e]).
Proof.
  intros N (e1 & e2 & u & -> & H & W). exists e1, (e2 ++ [e]), u. split; [now rewrite <- app_assoc|]. rewrite !in_app_iff. split; [|now left]. intros [X|[X|[]]]; [auto|congruence].
Qed.
Lemma entered_walked evs u : entered w evs -> notified w (evs ++ [(u, Walked)]).
Proof.
  intros (e1 & e2 & -> & H). exists e1, (e2 ++ [(u, Walked)]), u. split; [now rewrite <- app_assoc|]. rewrite !in_app_iff. split; [|right; now left]. intros [X|[X|[]]]; [auto|discriminate].
Qed.
Lemma swept_set f t p : swept f -> (swp (f t) = true -> swp p = true) -> swept (set f t p).
Proof.
  intros (u & E) H. destruct (Nat.eq_dec u t) as [-> |N]; [exists t; rewrite set_same; auto|exists u; now rewrite set_other].
Qed.
Lemma swept_here f t p : swp p = true -> swept (set f t p).
Proof. intros H. exists t. now rewrite set_same. Qed.

(** steps that leave the queue alone *)
Lemma quiet s f l evs t lb s' p' : inv s f l evs -> que s' = que s -> waiting p' = false -> lb <> Enqueue ->
  (seq s' = seq s \/ swp p' = true) -> (qlk s' = qlk s \/ qlk s = None) -> (locks p' = true -> qlk s' = Some t) ->
  (swp (f t) = true -> swp p' = true \/ qcount (que s) = 0%Z) -> inv s' (set f t p') l (evs ++ [(t, lb)]).
Proof.
  intros [C N O Z E A L W] Q P LB S K M G. assert (PZ : pre p' = 0%Z) by (destruct p'; cbn in *; congruence).
  constructor; rewrite ?Q; try assumption.
  - destruct (Nat.eq_dec t w) as [-> |T]; [rewrite set_same|rewrite set_other by congruence; exact Z]. rewrite PZ. unfold pre in Z. destruct (f w); lia.
  - rewrite enqueues_app. lia.
  - intros u U. destruct (Nat.eq_dec u t) as [-> |T]; [now rewrite set_same|rewrite set_other by exact T; auto].
  - intros u. destruct (Nat.eq_dec u t) as [-> |T]; [rewrite set_same; exact M|rewrite set_other by exact T]. intros H. specialize (L u H). destruct K as [-> |K]; congruence.
  - unfold wok in *. destruct (Nat.eq_dec t w) as [-> |T]; [rewrite set_same; destruct p'; try exact I; discriminate|]. rewrite set_other by congruence.
    assert (NE : (t, lb) <> (w, Enqueue)) by congruence.
    assert (SW : (1 <= qcount (que s))%Z -> (seq s <> 0%N \/ swept f) -> seq s' <> 0%N \/ swept (set f t p')).
    { intros CZ [X|X]; [destruct S as [-> |S]; [now left|right; now apply swept_here]|]. right. apply swept_set; [exact X|]. intros Y. destruct (G Y); [assumption|lia]. }
    destruct (f w) eqn:F; try exact I; cbn [pre] in Z.
    + apply SW; [lia|exact W].
    + destruct W as ((l' & ->) & EN & W). split; [eauto|]. split; [now apply entered_app|]. rewrite Q. destruct W as [(X & Y)|(X & Y)]; [left; split; [exact X|now apply notified_app]|right]. split; [exact X|]. apply SW; [cbn in Z; lia|exact Y].
    + destruct W as ((l' & ->) & EN & W). split; [eauto|]. split; [now apply entered_app|]. rewrite Q. destruct W as [(X & Y)|(X & Y)]; [left; split; [exact X|now apply notified_app]|right]. split; [exact X|]. apply SW; [cbn in Z; lia|exact Y].
Qed.

(** walking the queue *)
Lemma walked s f l evs t h b q' : inv s f l evs -> f t = N4 h b -> walk lot addr b (que s) = Ret (q', tt) ->
  exists l', inv (mkS (seq s) (mtx s) q' None) (set f t (Out h)) l' (evs ++ [(t, Walked)]) /\ (forall a, f w = W3 a \/ f w = W4 a -> signalled q' a).
Proof.
  intros I0 F E. pose proof I0 as [C N O Z Q A L W].
  assert (H : holds (que s) l) by (split; [exact C|]; split; [exact N|]; assert (0 <= pre (f w))%Z by (unfold pre; destruct (f w); lia); lia).
  assert (LT : forall u, u <> t -> locks (f u) = false).
  { intros u U. destruct (locks (f u)) eqn:X; [|reflexivity]. apply L in X. assert (qlk s = Some t) by (apply L; now rewrite F). congruence. }
  assert (WT : w <> t -> f w <> W2b) by (intros X Y; specialize (LT w X); rewrite Y in LT; discriminate).
  assert (OUT : forall q2 l2, chain (qmem q2) (qlist q2) l2 -> NoDup l2 -> ours q2 l2 -> qcount q2 = qcount (que s) -> length l2 <= length l ->
    (forall a, f w = W3 a \/ f w = W4 a -> (exists l', l2 = a :: l') /\ signalled q2 a) -> inv (mkS (seq s) (mtx s) q2 None) (set f t (Out h)) l2 (evs ++ [(t, Walked)])).
  { intros q2 l2 C2 N2 O2 Z2 L2 S2. constructor; cbn [que qlk seq]; try assumption.
    - rewrite Z2. destruct (Nat.eq_dec t w) as [-> |T]; [rewrite set_same; cbn [pre]; rewrite F in Z; cbn in Z; lia|rewrite set_other by congruence; lia].
    - rewrite enqueues_app. cbn. lia.
    - intros u U. destruct (Nat.eq_dec u t) as [-> |T]; [now rewrite set_same|rewrite set_other by exact T; auto].
    - intros u. destruct (Nat.eq_dec u t) as [-> |T]; [rewrite set_same; discriminate|rewrite set_other by exact T]. rewrite (LT u T). discriminate.
    - unfold wok. destruct (Nat.eq_dec t w) as [-> |T]; [now rewrite set_same|]. rewrite set_other by congruence. unfold wok in W.
      destruct (f w) as [| | | | |a|a| | | | | |] eqn:FW; try exact I; [exfalso; apply WT; congruence| |]; destruct W as (_ & EN & _); destruct (S2 a ltac:(auto)) as (X & Y); (split; [exact X|]); (split; [apply entered_app; [discriminate|exact EN]|]); left; (split; [exact Y|]); now apply entered_walked. }
  assert (HD : forall a, f w = W3 a \/ f w = W4 a -> exists l', l = a :: l').
  { intros a. unfold wok in W. intros [X|X]; rewrite X in W; apply W. }
  destruct l as [|a l].
  - rewrite (walk_nil lot addr b (que s) H) in E. injection E as <-. exists []. split.
    + apply OUT; try assumption; try lia. intros c X. destruct (HD c X) as (l' & X'). discriminate.
    + intros c X. destruct (HD c X) as (l' & X'). discriminate.
  - destruct b.
    + destruct (walk_all lot addr (que s) a l q' H O E) as (-> & (C2 & N2 & _) & O2 & S2 & Z2). exists [a]. split.
      * apply OUT; try assumption; try lia. intros c X. destruct (HD c X) as (l' & X'). injection X' as <- <-. split; [eauto|exact S2].
      * intros c X. destruct (HD c X) as (l' & X'). injection X' as <- <-. exact S2.
    + destruct (walk_one lot addr (que s) a l H O) as (q2 & E2 & (C2 & N2 & _) & O2 & S2 & Z2). assert (q2 = q') by congruence. subst q2. exists (a :: tl l). split.
      * apply OUT; try assumption; [destruct l; cbn; lia|]. intros c X. destruct (HD c X) as (l' & X'). injection X' as <- _. split; [eauto|exact S2].
      * intros c X. destruct (HD c X) as (l' & X'). injection X' as <- _. exact S2.
Qed.
End Inv.

Section Step.
Variables (w : nat) (all : bool) (lot : nat) (addr : N).
Notation inv := (inv w lot addr).
(** steps of the waiter inside wait *)
Lemma own s f l evs lb s' p' : inv s f l evs -> que s' = que s -> lb <> Enqueue -> (pre p' <= pre (f w))%Z ->
  (qlk s' = qlk s \/ qlk s = None) -> (locks p' = true -> qlk s' = Some w) -> swp (f w) = false -> 
  (match p' with W2b => seq s' <> 0%N | W3 a | W4 a => seq s' = seq s /\ (f w = W3 a \/ f w = W4 a) | _ => True end) -> inv s' (set f w p') l (evs ++ [(w, lb)]).
Proof.
  intros [C N O Z E A L W] Q LB P K M SN X. constructor; rewrite ?Q; try assumption.
  - rewrite set_same. lia.
  - rewrite enqueues_app. lia.
  - intros u U. rewrite set_other by exact U. auto.
  - intros u. destruct (Nat.eq_dec u w) as [-> |T]; [rewrite set_same; exact M|rewrite set_other by exact T]. intros H. specialize (L u H). destruct K as [-> |K]; congruence.
  - unfold wok in *. rewrite set_same.
    assert (G : forall a, seq s' = seq s /\ (f w = W3 a \/ f w = W4 a) ->
      (exists l', l = a :: l') /\ entered w (evs ++ [(w, lb)]) /\ ((signalled (que s') a /\ notified w (evs ++ [(w, lb)])) \/ (sleeping (que s') a /\ (seq s' <> 0%N \/ swept (set f w p'))))).
    { intros a (Y & V). assert (W' : (exists l', l = a :: l') /\ entered w evs /\ ((signalled (que s) a /\ notified w evs) \/ (sleeping (que s) a /\ (seq s <> 0%N \/ swept f)))) by (destruct V as [V|V]; rewrite V in W; exact W).
      destruct W' as (B1 & B2 & B3). split; [exact B1|]. split; [apply entered_app; [congruence|exact B2]|]. rewrite Q, Y. destruct B3 as [(D1 & D2)|(D1 & D2)]; [left; split; [exact D1|apply notified_app; [congruence|exact D2]]|right].
      split; [exact D1|]. destruct D2 as [D2|D2]; [now left|right]. apply swept_set; [exact D2|]. rewrite SN. discriminate. }
    destruct p'; try exact I; [left; exact X|now apply G|now apply G].
Qed.

Lemma inv_step s f l evs t lb s' p' : inv s f l evs -> tstep (single w all) lot addr t s (f t) lb s' p' -> exists l', inv s' (set f t p') l' (evs ++ [(t, lb)]).
Proof.
  intros V T. pose proof V as [C N O Z E A L W].
  assert (TW : waiting (f t) = true -> t = w) by (intros X; destruct (Nat.eq_dec t w) as [|Y]; [assumption|rewrite (A t Y) in X; discriminate]).
  inversion T as [sx G1 G2 G3 G4 G5|sx G2 G3 G4 G5|sx G1 G2 G3 G4 G5|sx G2 G3 G4 G5|sx G1 G2 G3 G4 G5|sx G2 G3 G4 G5|sx G2 G3 G4 G5|sx a G2 G3 G4 G5|sx a n0 G0 G1 G2 G3 G4 G5|sx a q' b G0 G1 G9 G2 G3 G4 G5|sx G1 G2 G3 G4 G5|sx h G2 G3 G4 G5|sx h G1 G2 G3 G4 G5|sx h b G1 G2 G3 G4 G5|sx h b G1 G2 G3 G4 G5|sx h G2 G3 G4 G5|sx h b G1 G2 G3 G4 G5|sx h b G1 G2 G3 G4 G5|sx h b G1 G2 G3 G4 G5|sx h b q' G1 G2 G3 G4 G5]; subst.
  - exists l. eapply quiet; try eassumption; cbn; try reflexivity; auto; try discriminate. rewrite <- G3. discriminate.
  - exists l. eapply quiet; try eassumption; cbn; try reflexivity; auto; try discriminate. rewrite <- G3. discriminate.
  - cbn in G1. apply Nat.eqb_eq in G1. subst t. exists l. eapply own; try eassumption; cbn; try reflexivity; auto; try discriminate; rewrite <- G3; cbn; try lia; reflexivity.
  - assert (t = w) by (apply TW; now rewrite <- G3). subst t. exists l. unfold wok in W. rewrite <- G3 in W, Z. constructor; cbn [que qmem qlist qcount qlk seq]; try assumption.
    + rewrite set_same. cbn [pre] in *. lia.
    + rewrite enqueues_app. cbn. lia.
    + intros u U. rewrite set_other by exact U. auto.
    + intros u. destruct (Nat.eq_dec u w) as [-> |Y]; [rewrite set_same; discriminate|rewrite set_other by exact Y; auto].
    + unfold wok. rewrite set_same. exact I.
  - assert (t = w) by (apply TW; now rewrite <- G3). subst t. exists l. eapply own; try eassumption; cbn; try reflexivity; auto; try discriminate; rewrite <- G3; cbn; try lia; reflexivity.
  - assert (t = w) by (apply TW; now rewrite <- G3). subst t. exists l. eapply own; try eassumption; cbn; try reflexivity; auto; try discriminate; try (rewrite <- G3; cbn; try lia; reflexivity).
    intros _. apply L. now rewrite <- G3.
  - assert (t = w) by (apply TW; now rewrite <- G3). subst t. unfold wok in W. rewrite <- G3 in W, Z. cbn [pre] in Z.
    destruct (insert_ours lot addr (que s) l C N Z O) as ((C2 & N2 & Z2) & O2 & S2 & Q2). eexists. constructor; cbn [que qlk seq].
    + exact C2.
    + exact N2.
    + exact O2.
    + rewrite set_same. cbn [pre]. lia.
    + rewrite enqueues_app. cbn [snd length]. lia.
    + intros u U. rewrite set_other by exact U. auto.
    + intros u. destruct (Nat.eq_dec u w) as [-> |Y]; [rewrite set_same; discriminate|rewrite set_other by exact Y]. intros X. specialize (L u X).
      assert (X2 : qlk s = Some w) by (pose proof (i_lock _ _ _ _ _ _ _ V w) as X3; apply X3; now rewrite <- G3). congruence.
    + unfold wok. rewrite set_same. split; [eauto|]. split; [exists evs, []; split; [reflexivity|intros []]|]. right. split; [exact S2|]. destruct W as [W|W]; [now left|right].
      apply swept_set; [exact W|]. rewrite <- G3. discriminate.
  - assert (t = w) by (apply TW; now rewrite <- G3). subst t. exists l. eapply own; try eassumption; cbn; try reflexivity; auto; try discriminate; try (rewrite <- G3; cbn; try lia; auto).
  - assert (t = w) by (apply TW; now rewrite <- G3). subst t. exists l. eapply own; try eassumption; cbn; try reflexivity; auto; try discriminate; try (rewrite <- G3; cbn; try lia; auto).
  - discriminate.
  - exists l. eapply quiet; try eassumption; cbn; try reflexivity; auto; try discriminate. rewrite <- G3. discriminate.
  - exists l. eapply quiet; try eassumption; cbn; try reflexivity; auto; try discriminate. rewrite <- G3. discriminate.
  - exists l. eapply quiet; try eassumption; cbn; try reflexivity; auto; try discriminate. rewrite <- G3. discriminate.
  - exists l. eapply quiet; try eassumption; cbn; try reflexivity; auto; try discriminate. rewrite <- G3. discriminate.
  - exists l. eapply quiet; try eassumption; try reflexivity; auto; try (destruct b; cbn; reflexivity || discriminate). rewrite <- G3. discriminate.
  - exists l. eapply quiet; try eassumption; cbn; try reflexivity; auto; try discriminate.
  - exists l. eapply quiet; try eassumption; cbn; try reflexivity; auto; try discriminate.
  - exists l. eapply quiet; try eassumption; cbn; try reflexivity; auto; try discriminate. rewrite <- G3. cbn. auto.
  - exists l. eapply quiet; try eassumption; cbn; try reflexivity; auto; try discriminate. rewrite <- G3. cbn. auto.
  - destruct (walked w lot addr s f l evs t h b q' V (eq_sym G3) G1) as (l' & V' & _). eauto.
Qed.
Lemma inv_exec evs s : exec (single w all) lot addr evs s -> exists l, inv (sh s) (thr s) l evs.
Proof.
  induction 1 as [|evs s1 e s2 X (l & V) S].
  - exists []. constructor; cbn; try constructor; try lia; auto; try discriminate.
  - inversion S as [s t lb sh' p' T E1 E2 E3]; subst. cbn [sh thr]. eapply inv_step; eassumption.
Qed.
End Step.
