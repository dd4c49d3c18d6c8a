From Verif Require Import Prelude UptrModel UptrSpec.

Definition UInv (s : ust) : Prop :=
  (forall o, status_of o (u_tr s) <> Violation) /\
  (forall v o d, u_var s v = Some (Some o, d) -> status_of o (u_tr s) = Owned d) /\
  (forall o d, status_of o (u_tr s) = Owned d -> exists v, u_var s v = Some (Some o, d)) /\
  (forall v w o d d', u_var s v = Some (Some o, d) -> u_var s w = Some (Some o, d') -> v = w).

Lemma status_snoc o tr e : status_of o (tr ++ [e]) = ev_status o (status_of o tr) e.
Proof. unfold status_of. rewrite fold_left_app. reflexivity. Qed.

Lemma fset_eq {A} (f : nat -> A) i x : fset f i x i = x.
Proof. unfold fset. rewrite Nat.eqb_refl. reflexivity. Qed.
Lemma fset_neq {A} (f : nat -> A) i x j : j <> i -> fset f i x j = f j.
Proof. intro H. unfold fset. destruct (Nat.eqb_spec j i); [contradiction|reflexivity]. Qed.

Ltac fs v w := destruct (Nat.eq_dec v w) as [?Heq|?Hne];
  [try subst v; rewrite ?fset_eq in * | rewrite ?(fset_neq _ w _ v) in * by assumption].

(** primitive transformations *)
(** [s] with variable [v] emptied while object [o] is "in hand" *)

(** 1. handing over a client object into a slot that holds no pointer *)
Lemma inv_hand s v o d dd :
  UInv s -> (u_var s v = None \/ u_var s v = Some (None, dd)) -> status_of o (u_tr s) = Client ->
  UInv (mkU (fset (u_var s) v (Some (Some o, d))) (u_tr s ++ [EHand o d])).
Proof.
  intros (I1 & I2 & I3 & I4) Hv Hc. unfold UInv; cbn [u_var u_tr].
  assert (Hno : forall w d', u_var s w = Some (Some o, d') -> False).
  { intros w d' H. apply I2 in H. congruence. }
  repeat split.
  - intro o'. rewrite status_snoc. cbn. destruct (Nat.eqb_spec o o'); [subst; rewrite Hc; discriminate|apply I1].
  - intros w o' d' H. rewrite status_snoc. cbn. unfold fset in H.
    destruct (Nat.eqb_spec w v).
    + injection H as <- <-. rewrite Nat.eqb_refl, Hc. reflexivity.
    + destruct (Nat.eqb_spec o o'); [subst; exfalso; eapply Hno; eauto|]. eapply I2; eauto.
  - intros o' d' H. rewrite status_snoc in H. cbn in H.
    destruct (Nat.eqb_spec o o').
    + subst o'. rewrite Hc in H. injection H as <-. exists v. apply fset_eq.
    + destruct (I3 _ _ H) as [w Hw]. exists w. rewrite fset_neq; [exact Hw|].
      intros ->. destruct Hv as [Hv|Hv]; congruence.
  - intros a b o' d1 d2 Ha Hb. unfold fset in Ha, Hb.
    destruct (Nat.eqb_spec a v), (Nat.eqb_spec b v); try congruence.
    + injection Ha as <- <-. exfalso; eapply Hno; eauto.
    + injection Hb as <- <-. exfalso; eapply Hno; eauto.
    + eapply I4; eauto.
Qed.

(** 2. giving up the pointer of a slot with an event that ends ownership *)
Lemma inv_drop s v o d x e :
  UInv s -> u_var s v = Some (Some o, d) -> (x = None \/ exists d', x = Some (None, d')) ->
  (e = EDel o d \/ e = ERel o) ->
  UInv (mkU (fset (u_var s) v x) (u_tr s ++ [e])).
Proof.
  intros (I1 & I2 & I3 & I4) Hv Hx He. unfold UInv; cbn [u_var u_tr].
  pose proof (I2 _ _ _ Hv) as Ho.
  assert (Hx' : forall a b, x = Some (Some a, b) -> False) by (intros a b E; destruct Hx as [->|[? ->]]; discriminate).
  assert (Hst : forall o', status_of o' (u_tr s ++ [e]) =
     if o =? o' then (match e with EDel _ _ => Dead | _ => Client end) else status_of o' (u_tr s)).
  { intro o'. rewrite status_snoc. destruct He as [->| ->]; cbn; (destruct (Nat.eqb_spec o o'); [subst|reflexivity]); rewrite Ho; [rewrite Nat.eqb_refl|]; reflexivity. }
  repeat split.
  - intro o'. rewrite Hst. destruct (o =? o'); [destruct e; discriminate|apply I1].
  - intros w o' d' H. rewrite Hst. unfold fset in H. destruct (Nat.eqb_spec w v).
    + exfalso; eapply Hx'; eauto.
    + destruct (Nat.eqb_spec o o'); [subst; exfalso; apply n; eapply I4; eauto|]. eapply I2; eauto.
  - intros o' d' H. rewrite Hst in H. destruct (Nat.eqb_spec o o').
    + destruct e; discriminate.
    + destruct (I3 _ _ H) as [w Hw]. exists w. rewrite fset_neq; [exact Hw|]. intros ->. congruence.
  - intros a b o' d1 d2 Ha Hb. unfold fset in Ha, Hb.
    destruct (Nat.eqb_spec a v), (Nat.eqb_spec b v); try congruence; try (exfalso; eapply Hx'; eauto; fail).
    eapply I4; eauto.
Qed.

(** 3. changing slots without touching who owns what (permuting contents) *)
Lemma inv_same s s' : UInv s -> u_tr s' = u_tr s ->
  (forall v o d, u_var s' v = Some (Some o, d) -> exists w, u_var s w = Some (Some o, d)) ->
  (forall w o d, u_var s w = Some (Some o, d) -> exists v, u_var s' v = Some (Some o, d)) ->
  (forall v w o d d', u_var s' v = Some (Some o, d) -> u_var s' w = Some (Some o, d') -> v = w) ->
  UInv s'.
Proof.
  intros (I1 & I2 & I3 & I4) Et H1 H2 H3. unfold UInv. rewrite Et. repeat split; auto.
  - intros v o d H. destruct (H1 _ _ _ H) as [w Hw]. eauto.
  - intros o d H. destruct (I3 _ _ H) as [w Hw]. eauto.
Qed.

Lemma step_inv s op s' : UInv s -> client_ok s op -> u_step s op = Some s' -> UInv s'.
Proof.
  intros HI Hc E. pose proof HI as (I1 & I2 & I3 & I4).
  destruct op as [v p d|v w|v w|v w|v|v p|v]; cbn [u_step] in E.
  - unfold u_new in E. destruct (u_var s v) eqn:Ev; [discriminate|]. injection E as <-.
    destruct p as [o|]; unfold emit, setv; cbn [u_var u_tr].
    + eapply (inv_hand s v o d 0); eauto.
    + rewrite app_nil_r. eapply inv_same; [exact HI|reflexivity|..]; cbn [u_var].
      * intros a o d' H. unfold fset in H. destruct (Nat.eqb_spec a v); [discriminate|eauto].
      * intros a o d' H. exists a. rewrite fset_neq; [exact H|congruence].
      * intros a b o d1 d2 Ha Hb. unfold fset in Ha, Hb.
        destruct (Nat.eqb_spec a v), (Nat.eqb_spec b v); try discriminate; eauto.
  - unfold u_movector in E. destruct (u_var s v) eqn:Ev; [discriminate|].
    destruct (u_var s w) as [[p d]|] eqn:Ew; [|discriminate].
    unfold u_release in E. rewrite Ew in E. injection E as <-.
    assert (Hvw : v <> w) by congruence.
    eapply inv_same; [exact HI|reflexivity|..]; unfold setv; cbn [u_var].
    + intros a o d' H. unfold fset in H. destruct (Nat.eqb_spec a v).
      * injection H as -> ->. eauto.
      * destruct (Nat.eqb_spec a w); [discriminate|eauto].
    + intros a o d' H. destruct (Nat.eq_dec a w) as [->|Ne].
      * exists v. rewrite fset_eq. congruence.
      * exists a. rewrite !fset_neq; [exact H|exact Ne|congruence].
    + intros a b o d1 d2 Ha Hb. unfold fset in Ha, Hb.
      destruct (Nat.eqb_spec a v), (Nat.eqb_spec b v); try congruence.
      * injection Ha as -> ->. destruct (Nat.eqb_spec b w); [discriminate|]. exfalso; eauto.
      * injection Hb as -> ->. destruct (Nat.eqb_spec a w); [discriminate|]. exfalso; eauto.
      * destruct (Nat.eqb_spec a w), (Nat.eqb_spec b w); try discriminate. eauto.
  - unfold u_moveassign in E. destruct (u_var s v) as [[pv dv]|] eqn:Ev; [|discriminate].
    unfold u_release in E. destruct (u_var s w) as [[pw dw]|] eqn:Ew; [|discriminate].
    unfold u_reset, setv in E; cbn [u_var u_tr] in E.
    destruct (Nat.eq_dec v w) as [->|Hvw].
    + (* self move *)
      rewrite !fset_eq in E. cbn [u_var u_tr] in E. rewrite !fset_eq in E. injection E as <-.
      assert (pv = pw /\ dv = dw) as [-> ->] by (split; congruence).
      eapply inv_same; [exact HI|reflexivity|..]; cbn [u_var].
      * intros a o d' H. unfold fset in H. destruct (Nat.eqb_spec a w); [subst; rewrite H in *; eauto|eauto].
      * intros a o d' H. exists a. unfold fset. destruct (Nat.eqb_spec a w); [subst; congruence|exact H].
      * intros a b o d1 d2 Ha Hb. unfold fset in Ha, Hb.
        destruct (Nat.eqb_spec a w), (Nat.eqb_spec b w); try congruence.
        -- subst a. eapply I4; [rewrite Ew; exact Ha|exact Hb].
        -- subst b. eapply I4; [exact Ha|rewrite Ew; exact Hb].
        -- eapply I4; eauto.
    + rewrite (fset_neq _ w _ v) in E by assumption. rewrite Ev in E.
      (* state after both exchanges *)
      set (f := fset (fset (fset (u_var s) w (Some (None, dw))) v (Some (pw, dv))) v (Some (pw, dw))).
      assert (E' : exists tr', s' = mkU f tr' /\
          tr' = u_tr s ++ match pv with Some o => [EDel o dv] | None => [] end).
      { destruct pv as [o|]; unfold emit in E; cbn [u_var u_tr] in E;
        rewrite fset_eq, (fset_neq _ v _ w), fset_eq in E by congruence; injection E as <-;
        eexists; (split; [reflexivity|]); rewrite ?app_nil_r; reflexivity. }
      clear E. destruct E' as (tr' & -> & Htr).
      (* first drop v's object, then move w's contents *)
      assert (HI1 : UInv (mkU (fset (u_var s) v (Some (None, dw))) tr')).
      { destruct pv as [o|]; subst tr'.
        - eapply inv_drop; eauto.
        - rewrite app_nil_r. eapply inv_same; [exact HI|reflexivity|..]; cbn [u_var].
          + intros a o d' H. unfold fset in H. destruct (Nat.eqb_spec a v); [discriminate|eauto].
          + intros a o d' H. exists a. rewrite fset_neq; [exact H|congruence].
          + intros a b o d1 d2 Ha Hb. unfold fset in Ha, Hb.
            destruct (Nat.eqb_spec a v), (Nat.eqb_spec b v); try discriminate; eauto. }
      pose proof HI1 as (J1 & J2 & J3 & J4). cbn [u_var u_tr] in *.
      assert (Hw1 : fset (u_var s) v (Some (None, dw)) w = Some (pw, dw)) by (rewrite fset_neq by congruence; exact Ew).
      eapply inv_same; [exact HI1|reflexivity|..]; cbn [u_var]; unfold f.
      * intros a o d' H. unfold fset in H. destruct (Nat.eqb_spec a v).
        -- injection H as -> ->. exists w. exact Hw1.
        -- destruct (Nat.eqb_spec a w); [discriminate|]. exists a. rewrite fset_neq by assumption. exact H.
      * intros a o d' H. destruct (Nat.eq_dec a w) as [->|Ne].
        -- exists v. rewrite fset_eq. congruence.
        -- exists a. assert (a <> v) by (intros ->; rewrite fset_eq in H; discriminate).
           rewrite !fset_neq by assumption. rewrite fset_neq in H by assumption. exact H.
      * intros a b o d1 d2 Ha Hb. unfold fset in Ha, Hb.
        destruct (Nat.eqb_spec a v), (Nat.eqb_spec b v); try congruence.
        -- injection Ha as -> ->. destruct (Nat.eqb_spec b w); [discriminate|].
           exfalso. assert (b = w); [|congruence]. eapply J4; [rewrite fset_neq by assumption; exact Hb|exact Hw1].
        -- injection Hb as -> ->. destruct (Nat.eqb_spec a w); [discriminate|].
           exfalso. assert (a = w); [|congruence]. eapply J4; [rewrite fset_neq by assumption; exact Ha|exact Hw1].
        -- destruct (Nat.eqb_spec a w), (Nat.eqb_spec b w); try discriminate. eauto.
  - unfold u_swap in E. destruct (u_var s v) as [a|] eqn:Ev; [|discriminate].
    destruct (u_var s w) as [b|] eqn:Ew; [|discriminate]. injection E as <-.
    eapply inv_same; [exact HI|reflexivity|..]; unfold setv; cbn [u_var].
    + intros x o d H. unfold fset in H. destruct (Nat.eqb_spec x w); [exists v; congruence|].
      destruct (Nat.eqb_spec x v); [exists w; congruence|]. eauto.
    + intros x o d H. destruct (Nat.eq_dec x v) as [->|Nv].
      * exists w. rewrite fset_eq. congruence.
      * destruct (Nat.eq_dec x w) as [->|Nw].
        -- exists v. rewrite fset_neq by congruence. rewrite fset_eq. congruence.
        -- exists x. rewrite !fset_neq by assumption. exact H.
    + intros x y o d1 d2 Hx Hy. unfold fset in Hx, Hy.
      destruct (Nat.eqb_spec x w), (Nat.eqb_spec y w), (Nat.eqb_spec x v), (Nat.eqb_spec y v);
        try congruence; subst; eauto;
        repeat match goal with
        | H1 : Some ?a = Some (Some ?o, _), H2 : u_var s ?x = Some ?a |- _ => rewrite H1 in H2; clear H1 end;
        match goal with
        | H1 : u_var s ?x = Some (Some ?o, _), H2 : u_var s ?y = Some (Some ?o, _) |- _ =>
           first [ let K := fresh in assert (K : x = y) by (eapply I4; eauto); congruence ]
        end.
  - unfold u_release in E. destruct (u_var s v) as [[p d]|] eqn:Ev; [|discriminate]. injection E as <-.
    unfold emit, setv; cbn [u_var u_tr]. destruct p as [o|].
    + eapply inv_drop; eauto.
    + rewrite app_nil_r. eapply inv_same; [exact HI|reflexivity|..]; cbn [u_var].
      * intros a o d' H. unfold fset in H. destruct (Nat.eqb_spec a v); [discriminate|eauto].
      * intros a o d' H. exists a. rewrite fset_neq; [exact H|congruence].
      * intros a b o d1 d2 Ha Hb. unfold fset in Ha, Hb.
        destruct (Nat.eqb_spec a v), (Nat.eqb_spec b v); try discriminate; eauto.
  - destruct (u_var s v) as [[old d]|] eqn:Ev; [|discriminate].
    unfold u_reset, emit in E; cbn [u_var u_tr] in E. rewrite Ev in E. injection E as <-.
    (* the hand-over event is logged first; commute it past the deletion *)
    assert (HI1 : UInv (mkU (fset (u_var s) v (Some (None, d)))
                  (u_tr s ++ match old with Some o => [EDel o d] | None => [] end))).
    { destruct old as [o|].
      - eapply inv_drop; eauto.
      - rewrite app_nil_r. eapply inv_same; [exact HI|reflexivity|..]; cbn [u_var].
        + intros a o d' H. unfold fset in H. destruct (Nat.eqb_spec a v); [discriminate|eauto].
        + intros a o d' H. exists a. rewrite fset_neq; [exact H|congruence].
        + intros a b o d1 d2 Ha Hb. unfold fset in Ha, Hb.
          destruct (Nat.eqb_spec a v), (Nat.eqb_spec b v); try discriminate; eauto. }
    destruct p as [o|].
    + cbn in Hc.
      assert (Hne : forall o2, old = Some o2 -> o2 <> o).
      { intros o2 -> ->. apply I2 in Ev. congruence. }
      assert (HI2 : UInv (mkU (fset (fset (u_var s) v (Some (None, d))) v (Some (Some o, d)))
            ((u_tr s ++ match old with Some o => [EDel o d] | None => [] end) ++ [EHand o d]))).
      { apply (inv_hand _ v o d d HI1); cbn [u_var u_tr].
        - right. apply fset_eq.
        - destruct old as [o2|]; [|rewrite app_nil_r; exact Hc].
          rewrite status_snoc. cbn. destruct (Nat.eqb_spec o2 o); [exfalso; eapply Hne; eauto|exact Hc]. }
      destruct HI2 as (K1 & K2 & K3 & K4); cbn [u_var u_tr] in *.
      set (tr2 := u_tr s ++ [EHand o d] ++ match old with Some o => [EDel o d] | None => [] end).
      assert (Hst : forall x, status_of x tr2 =
        status_of x ((u_tr s ++ match old with Some o => [EDel o d] | None => [] end) ++ [EHand o d])).
      { intro x. unfold tr2. destruct old as [o2|].
        - cbn [app]. change (EHand o d :: [EDel o2 d]) with ([EHand o d] ++ [EDel o2 d]).
          rewrite app_assoc, !status_snoc.
          pose proof (Hne o2 eq_refl). cbn.
          destruct (Nat.eqb_spec o2 x), (Nat.eqb_spec o x); try reflexivity; congruence.
        - rewrite !app_nil_r. reflexivity. }
      assert (Hff : forall a, fset (fset (u_var s) v (Some (None, d))) v (Some (Some o, d)) a
                    = fset (u_var s) v (Some (Some o, d)) a).
      { intro a. unfold fset. destruct (Nat.eqb_spec a v); reflexivity. }
      assert (G : UInv (mkU (fset (u_var s) v (Some (Some o, d))) tr2)).
      { unfold UInv; cbn [u_var u_tr]. repeat split.
        - intro x. rewrite Hst. apply K1.
        - intros a x dx H. rewrite Hst. apply (K2 a). rewrite Hff. exact H.
        - intros x dx H. rewrite Hst in H. destruct (K3 _ _ H) as [a Ha]. exists a. rewrite <- Hff. exact Ha.
        - intros a b x d1 d2 Ha Hb. apply (K4 a b x d1 d2); rewrite Hff; assumption. }
      unfold tr2 in G. destruct old as [o2|]; unfold setv, emit; cbn [u_var u_tr].
      * rewrite <- app_assoc. exact G.
      * exact G.
    + destruct old as [o2|]; unfold setv, emit; cbn [u_var u_tr]; rewrite !app_nil_r in *; exact HI1.
  - unfold u_destroy in E. destruct (u_var s v) as [[p d]|] eqn:Ev; [|discriminate]. injection E as <-.
    unfold emit, setv; cbn [u_var u_tr]. destruct p as [o|].
    + eapply inv_drop; eauto.
    + eapply inv_same; [exact HI|reflexivity|..]; cbn [u_var].
      * intros a o d' H. unfold fset in H. destruct (Nat.eqb_spec a v); [discriminate|eauto].
      * intros a o d' H. exists a. rewrite fset_neq; [exact H|congruence].
      * intros a b o d1 d2 Ha Hb. unfold fset in Ha, Hb.
        destruct (Nat.eqb_spec a v), (Nat.eqb_spec b v); try discriminate; eauto.
Qed.

Lemma run_inv ops s : LegalRun ops s -> UInv s.
Proof.
  induction 1 as [|ops s op s' HR IH Hc E].
  - unfold UInv, u_init; cbn. repeat split; try discriminate.
  - eapply step_inv; eauto.
Qed.

Lemma no_violation ops s : LegalRun ops s -> forall o, status_of o (u_tr s) <> Violation.
Proof. intros H. apply (run_inv _ _ H). Qed.

Lemma unique_owner ops s : LegalRun ops s ->
  forall v w o d d', u_var s v = Some (Some o, d) -> u_var s w = Some (Some o, d') -> v = w.
Proof. intros H. apply (run_inv _ _ H). Qed.

Lemma no_leak ops s : LegalRun ops s -> (forall v, u_var s v = None) ->
  forall o, status_of o (u_tr s) = Client \/ status_of o (u_tr s) = Dead.
Proof.
  intros H Hv o. destruct (run_inv _ _ H) as (I1 & I2 & I3 & I4).
  destruct (status_of o (u_tr s)) eqn:E; auto.
  - destruct (I3 _ _ E) as [v Ev]. rewrite Hv in Ev. discriminate.
  - exfalso. eapply I1; eauto.
Qed.

Lemma owner_alive ops s : LegalRun ops s ->
  forall v o d, u_var s v = Some (Some o, d) -> status_of o (u_tr s) = Owned d.
Proof. intros H. apply (run_inv _ _ H). Qed.
