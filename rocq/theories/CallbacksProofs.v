From Verif Require Import Prelude CallbacksModel CallbacksSpec.
From Coq Require Import Sorted.
Local Open Scope Z_scope.

Section P.
  Context {F : Type}.
  Implicit Type m : list (Z * F).
  Implicit Types h e : list (cev F).

  Definition lt_fst (a b : Z * F) := fst a < fst b.
  Definition srt m := StronglySorted lt_fst m.

  Fixpoint look m k : option F :=
    match m with [] => None | (k', f) :: t => if k =? k' then Some f else look t k end.

  Lemma look_lt m k : Forall (fun p => k < fst p) m -> look m k = None.
  Proof.
    induction 1 as [|[k' f] t H _ IH]; cbn; [reflexivity|]. cbn in H.
    destruct (Z.eqb_spec k k'); [lia|exact IH].
  Qed.

  Lemma look_in m k f : srt m -> (look m k = Some f <-> In (k, f) m).
  Proof.
    induction 1 as [|[k' f'] t Hs IH Hf]; cbn; [split; [discriminate|tauto]|].
    destruct (Z.eqb_spec k k') as [->|Ne].
    - split.
      + intro E. injection E as ->. auto.
      + intros [E|E]; [congruence|]. rewrite Forall_forall in Hf. apply Hf in E.
        unfold lt_fst in E; cbn in E. lia.
    - rewrite IH. split; [auto|]. intros [E|E]; [congruence|exact E].
  Qed.

  Lemma emplace_sorted_aux m k f : srt m -> srt (m_emplace m k f) /\
     (forall x, Forall (fun p => x < fst p) m -> x < k -> Forall (fun p => x < fst p) (m_emplace m k f)) /\
     (forall j, look (m_emplace m k f) j = match look m j with Some g => Some g | None => if j =? k then Some f else None end).
  Proof.
    induction 1 as [|[k' f'] t Hs IH Hf]; cbn.
    - repeat split.
      + repeat constructor.
      + intros; constructor; auto.
    - destruct IH as (IH1 & IH2 & IH3). unfold lt_fst in Hf; cbn in Hf.
      destruct (Z.ltb_spec k k').
      + repeat split.
        * constructor; [constructor; auto|]. constructor; [exact H|].
          eapply Forall_impl; [|exact Hf]. intros a Ha; unfold lt_fst; cbn in *. lia.
        * intros; constructor; auto.
        * intros j. cbn. destruct (Z.eqb_spec j k) as [->|Nj].
          -- destruct (Z.eqb_spec k k'); [lia|]. rewrite look_lt; [reflexivity|].
             eapply Forall_impl; [|exact Hf]. intros a Ha; cbn in *. lia.
          -- destruct (Z.eqb_spec j k'); [reflexivity|]. destruct (look t j); reflexivity.
      + destruct (Z.eqb_spec k k') as [->|Nk].
        * repeat split; auto.
          -- constructor; auto.
          -- intros j. cbn. destruct (Z.eqb_spec j k'); [reflexivity|]. destruct (look t j); reflexivity.
        * repeat split.
          -- constructor; [exact IH1|]. apply IH2; [exact Hf|cbn; lia].
          -- intros x Hx Hk. inversion Hx; subst. constructor; auto.
          -- intros j. cbn. destruct (Z.eqb_spec j k'); [reflexivity|]. apply IH3.
  Qed.

  Lemma assign_sorted_aux m k f : srt m -> srt (m_assign m k f) /\
     (forall x, Forall (fun p => x < fst p) m -> x < k -> Forall (fun p => x < fst p) (m_assign m k f)) /\
     (forall j, look (m_assign m k f) j = if j =? k then Some f else look m j).
  Proof.
    induction 1 as [|[k' f'] t Hs IH Hf]; cbn.
    - repeat split.
      + repeat constructor.
      + intros; constructor; auto.
    - destruct IH as (IH1 & IH2 & IH3). unfold lt_fst in Hf; cbn in Hf.
      destruct (Z.ltb_spec k k').
      + repeat split.
        * constructor; [constructor; auto|]. constructor; [exact H|].
          eapply Forall_impl; [|exact Hf]. intros a Ha; unfold lt_fst; cbn in *. lia.
        * intros; constructor; auto.
      + destruct (Z.eqb_spec k k') as [->|Nk].
        * repeat split.
          -- constructor; auto.
          -- intros x Hx Hk. inversion Hx; subst. constructor; auto.
          -- intros j. cbn. destruct (Z.eqb_spec j k'); reflexivity.
        * repeat split.
          -- constructor; [exact IH1|]. apply IH2; [exact Hf|cbn; lia].
          -- intros x Hx Hk. inversion Hx; subst. constructor; auto.
          -- intros j. cbn. rewrite IH3. destruct (Z.eqb_spec j k'), (Z.eqb_spec j k); try reflexivity. lia.
  Qed.

  Lemma erase_sorted_aux m k : srt m -> srt (m_erase m k) /\
     (forall x, Forall (fun p => x < fst p) m -> Forall (fun p => x < fst p) (m_erase m k)) /\
     (forall j, look (m_erase m k) j = if j =? k then None else look m j).
  Proof.
    induction 1 as [|[k' f'] t Hs IH Hf]; cbn.
    - repeat split; [constructor| |]. 2: intros j; destruct (j =? k); reflexivity. auto.
    - destruct IH as (IH1 & IH2 & IH3). unfold lt_fst in Hf; cbn in Hf.
      destruct (Z.eqb_spec k k') as [->|Nk].
      + repeat split.
        * exact Hs.
        * intros x Hx. inversion Hx; auto.
        * intros j. destruct (Z.eqb_spec j k') as [->|]; [|reflexivity]. apply look_lt. exact Hf.
      + repeat split.
        * constructor; [exact IH1|]. apply IH2; exact Hf.
        * intros x Hx. inversion Hx; subst. constructor; auto.
        * intros j. cbn. rewrite IH3. destruct (Z.eqb_spec j k'), (Z.eqb_spec j k); try reflexivity. lia.
  Qed.

  (** reached state after history [h] *)
  Definition CInv (h : list (cev F)) (s : cbs F) : Prop :=
    srt (cb_funcs s) /\ (forall k, look (cb_funcs s) k = registered h k) /\
    (forall k f, look (cb_funcs s) k = Some f -> 0 <= k < cb_n s) /\
    StronglySorted Z.lt (ids_of h) /\ Forall (fun i => 0 <= i < cb_n s) (ids_of h) /\ 0 <= cb_n s.

  Lemma registered_app h e k : registered (h ++ e) k = fold_left (reg_ev k) e (registered h k).
  Proof. unfold registered. apply fold_left_app. Qed.

  Lemma ids_app h e : ids_of (h ++ e) = ids_of h ++ ids_of (F:=F) e.
  Proof. unfold ids_of. apply flat_map_app. Qed.

  Lemma sorted_snoc l x : StronglySorted Z.lt l -> Forall (fun i => i < x) l -> StronglySorted Z.lt (l ++ [x]).
  Proof.
    induction 1 as [|a t Hs IH Hf]; intro Hx; cbn; [repeat constructor|].
    inversion Hx; subst. constructor; [auto|]. apply Forall_app. split; [exact Hf|]. constructor; auto.
  Qed.

  Lemma insert_inv h s f : CInv h s ->
    CInv (h ++ [VInsert (cb_n s) f]) (snd (cb_insert s f)).
  Proof.
    intros (H1 & H2 & H3 & H4 & H5 & H6). unfold cb_insert; cbn [snd].
    destruct (emplace_sorted_aux (cb_funcs s) (cb_n s) f H1) as (E1 & _ & E3).
    assert (Hno : look (cb_funcs s) (cb_n s) = None).
    { destruct (look (cb_funcs s) (cb_n s)) eqn:E; [|reflexivity]. apply H3 in E. lia. }
    unfold CInv; cbn [cb_funcs cb_n]. split; [exact E1|]. split; [|split; [|split; [|split]]].
    - intro k. rewrite E3, registered_app. cbn. rewrite H2.
      destruct (Z.eqb_spec (cb_n s) k) as [<-|Ne].
      + rewrite H2 in Hno. rewrite Hno, Z.eqb_refl. reflexivity.
      + destruct (registered h k); [reflexivity|]. destruct (Z.eqb_spec k (cb_n s)); [lia|reflexivity].
    - intros k g E. rewrite E3 in E. destruct (look (cb_funcs s) k) eqn:El.
      + apply H3 in El. lia.
      + destruct (Z.eqb_spec k (cb_n s)); [lia|discriminate].
    - rewrite ids_app. cbn. apply sorted_snoc; [exact H4|].
      eapply Forall_impl; [|exact H5]. cbn; intros; lia.
    - rewrite ids_app. apply Forall_app. split.
      + eapply Forall_impl; [|exact H5]. cbn; intros; lia.
      + repeat constructor; lia.
    - lia.
  Qed.

  Lemma clear_inv h s : CInv h s -> CInv (h ++ [VClear]) (cb_clear s).
  Proof.
    intros (H1 & H2 & H3 & H4 & H5 & H6). unfold CInv, cb_clear; cbn [cb_funcs cb_n].
    rewrite !ids_app, app_nil_r. repeat split; auto.
    - constructor.
    - intro k. rewrite registered_app. reflexivity.
    - discriminate.
    - discriminate.
  Qed.

  Lemma step_inv h s o : CInv h s ->
    (forall i f, o = CAssign i f -> In i (ids_of h)) ->
    CInv (h ++ fst (cb_step s o)) (snd (cb_step s o)).
  Proof.
    intros HI Ha. pose proof HI as (H1 & H2 & H3 & H4 & H5 & H6).
    destruct o as [f|i f|i| |f]; cbn [cb_step].
    - apply insert_inv; exact HI.
    - cbn [fst snd]. specialize (Ha i f eq_refl).
      destruct (assign_sorted_aux (cb_funcs s) i f H1) as (E1 & _ & E3).
      unfold CInv, cb_assign; cbn [cb_funcs cb_n]. rewrite !ids_app, app_nil_r.
      rewrite Forall_forall in H5. pose proof (H5 _ Ha) as Hi. cbn in Hi.
      split; [exact E1|]. split; [|split; [|split; [|split]]]; auto.
      + intro k. rewrite E3, registered_app. cbn. rewrite H2.
        destruct (Z.eqb_spec i k), (Z.eqb_spec k i); try reflexivity; lia.
      + intros k g E. rewrite E3 in E. destruct (Z.eqb_spec k i); [lia|eauto].
      + rewrite Forall_forall. exact H5.
    - cbn [fst snd]. destruct (erase_sorted_aux (cb_funcs s) i H1) as (E1 & _ & E3).
      unfold CInv, cb_erase; cbn [cb_funcs cb_n]. rewrite !ids_app, app_nil_r.
      split; [exact E1|]. split; [|split; [|split; [|split]]]; auto.
      + intro k. rewrite E3, registered_app. cbn. rewrite H2.
        destruct (Z.eqb_spec i k), (Z.eqb_spec k i); try reflexivity; lia.
      + intros k g E. rewrite E3 in E. destruct (Z.eqb_spec k i); [discriminate|eauto].
    - apply clear_inv; exact HI.
    - unfold cb_set. pose proof (insert_inv _ _ f (clear_inv h s HI)) as G.
      unfold cb_insert in *. cbn [fst snd] in *. rewrite <- app_assoc in G. exact G.
  Qed.

  Lemma run_inv : forall os h s, CInv h s ->
    assigns_known_ids (h ++ fst (cb_run s os)) ->
    CInv (h ++ fst (cb_run s os)) (snd (cb_run s os)).
  Proof.
    induction os as [|o os IH]; intros h s HI Ha; cbn [cb_run] in *.
    - cbn in *. rewrite app_nil_r. exact HI.
    - destruct (cb_step s o) as [e s1] eqn:E1. destruct (cb_run s1 os) as [es s2] eqn:E2.
      cbn [fst snd] in *. rewrite app_assoc in *.
      replace es with (fst (cb_run s1 os)) in * by (rewrite E2; reflexivity).
      replace s2 with (snd (cb_run s1 os)) by (rewrite E2; reflexivity).
      apply IH; [|exact Ha].
      pose proof (step_inv h s o HI) as G. rewrite E1 in G. cbn [fst snd] in G. apply G.
      intros i f ->. cbn in E1. injection E1 as <- _.
      eapply (Ha h i f). rewrite <- !app_assoc. reflexivity.
  Qed.

  Lemma init_inv : CInv [] cb_init.
  Proof. unfold CInv, cb_init; cbn. repeat split; try constructor; try discriminate; lia. Qed.

  Lemma callbacks_ok os (h := fst (cb_run (F:=F) cb_init os)) (s := snd (cb_run cb_init os)) :
    assigns_known_ids h ->
    StronglySorted Z.lt (ids_of h) /\
    StronglySorted Z.lt (map fst (cb_calls s)) /\
    (forall k f, In (k, f) (cb_calls s) <-> registered h k = Some f).
  Proof.
    intro Ha. destruct (run_inv os [] cb_init init_inv Ha) as (H1 & H2 & H3 & H4 & H5 & H6).
    cbn [app] in *. split; [exact H4|]. split.
    - unfold cb_calls. fold s in H1. clear -H1. induction H1 as [|a t Hs IH Hf]; cbn; constructor; auto.
      rewrite Forall_map. exact Hf.
    - intros k f. unfold cb_calls, s, h. rewrite <- (look_in _ _ _ H1). rewrite H2. reflexivity.
  Qed.
End P.

Lemma callbacks_assign_collides : exists os : list (cop nat),
  let (h, s) := cb_run cb_init os in
  exists k f, h = [VAssign k 7%nat; VInsert k f] /\ ~ In (k, f) (cb_calls s).
Proof.
  exists [CAssign 0 7%nat; CInsert 8%nat]. cbn. exists 0, 8%nat. split; [reflexivity|].
  intros [E|[]]. discriminate.
Qed.
