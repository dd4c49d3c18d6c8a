(** Mutual exclusion. *)
From Verif Require Import Prelude HashModel ParkModel ParkSpec ParkProofs MutexModel MutexSpec.

Definition own (p : pc) : bool := match p with Held | ULoad | UCas _ => true | _ => false end.
Definition pcok (p : pc) : Prop :=
  match p with
  | LCas old => old = 0%N
  | ACas old new _ => old = 0%N /\ new = 1%N
  | MCas _ _ _ => False
  | Park1 new _ | Park2 new _ | Park2a new _ => new = 1%N
  | TCas st => st = 0%N
  | _ => True
  end.
Definition wordof (o : option nat) : N := match o with None => 0 | Some _ => 1 end%N.
Record Inv (s : state) (o : option nat) : Prop := {
  i_word : word (sh s) = wordof o;
  i_thr : forall t p, nth_error (thr s) t = Some p -> pcok p /\ (own p = true <-> o = Some t);
  i_in : forall t, o = Some t -> t < length (thr s) }.

Lemma retry_ok w spin : w = 0%N \/ w = 1%N -> pcok (retry w spin) /\ own (retry w spin) = false.
Proof.
  intros [-> | ->]; unfold retry; cbn.
  - auto.
  - destruct (N.ltb spin_limit (u32 (spin + 1))); cbn; auto.
Qed.
Lemma after_load_ok w : w = 0%N \/ w = 1%N -> pcok (after_load w) /\ own (after_load w) = false.
Proof.
  intros H. unfold after_load. destruct (N.eqb_spec w 0) as [->|]; [cbn; auto|]. apply retry_ok. exact H.
Qed.
Lemma wordof_01 o : wordof o = 0%N \/ wordof o = 1%N. Proof. destruct o; cbn; auto. Qed.
Lemma try_head_ok w p : try_head w = Some p -> pcok p /\ own p = false.
Proof. unfold try_head. destruct (N.eqb_spec w 0) as [->|]; intros E; [injection E as <-; cbn; auto|discriminate]. Qed.

Lemma legal_app o evs1 evs2 : legal o (evs1 ++ evs2) = match legal o evs1 with Some o' => legal o' evs2 | None => None end.
Proof.
  revert o. induction evs1 as [|[t l] evs1 IH]; intros o; [reflexivity|]. cbn. destruct l; [apply IH| | |].
  - destruct o; [reflexivity|apply IH].
  - destruct o as [u|]; [|reflexivity]. destruct (Nat.eqb t u); [apply IH|reflexivity].
  - destruct o; [apply IH|reflexivity].
Qed.

Lemma thr_upd (thr thr' : list pc) t p' : upd thr t p' = Some thr' -> forall u p, nth_error thr' u = Some p -> (u = t /\ p = p') \/ (u <> t /\ nth_error thr u = Some p).
Proof.
  intros U u p H. rewrite (upd_get _ _ _ _ _ U) in H. destruct (Nat.eqb_spec u t) as [->|N]; [left; split; congruence|right; auto].
Qed.

(** a step that keeps the word and the owner *)
Lemma inv_same s o t p p' sh' thr' : Inv s o -> nth_error (thr s) t = Some p -> upd (thr s) t p' = Some thr' ->
  word sh' = word (sh s) -> pcok p' -> own p' = own p -> Inv (mkState sh' thr') o.
Proof.
  intros [W T L] E U Ew Pk Ow. constructor; cbn.
  - congruence.
  - intros u q Hq. destruct (thr_upd _ _ _ _ U u q Hq) as [[-> ->]|[N Hq']]; [|apply T; exact Hq'].
    split; [exact Pk|]. rewrite Ow. apply (T t p E).
  - intros u Hu. rewrite (upd_length _ _ _ _ U). apply L. exact Hu.
Qed.

Lemma inv_acquire s t p p' sh' thr' : Inv s None -> nth_error (thr s) t = Some p -> upd (thr s) t p' = Some thr' ->
  word sh' = 1%N -> pcok p' -> own p' = true -> Inv (mkState sh' thr') (Some t).
Proof.
  intros [W T L] E U Ew Pk Ow. constructor; cbn.
  - exact Ew.
  - intros u q Hq. destruct (thr_upd _ _ _ _ U u q Hq) as [[-> ->]|[N Hq']].
    + split; [exact Pk|]. split; intros _; [reflexivity|exact Ow].
    + destruct (T u q Hq') as [A B]. split; [exact A|]. split; intros X; [apply B in X; discriminate|injection X as ->; contradiction].
  - intros u [= <-]. rewrite (upd_length _ _ _ _ U). apply nth_error_Some. congruence.
Qed.
Lemma inv_release s t p p' sh' thr' : Inv s (Some t) -> nth_error (thr s) t = Some p -> upd (thr s) t p' = Some thr' ->
  word sh' = 0%N -> pcok p' -> own p' = false -> Inv (mkState sh' thr') None.
Proof.
  intros [W T L] E U Ew Pk Ow. constructor; cbn.
  - exact Ew.
  - intros u q Hq. destruct (thr_upd _ _ _ _ U u q Hq) as [[-> ->]|[N Hq']].
    + split; [exact Pk|]. split; intros X; [congruence|discriminate].
    + destruct (T u q Hq') as [A B]. split; [exact A|]. split; intros X; [apply B in X; injection X as ->; contradiction|discriminate].
  - intros u [=].
Qed.

Lemma inv_step md lot addr s o e s' : Inv s o -> step md lot addr s e s' -> exists o', legal o [e] = Some o' /\ Inv s' o'.
Proof.
  intros I H. inversion H as [s0 t p l sh' p' thr' E T U]; subst. pose proof (i_word _ _ I) as W. pose proof (i_thr _ _ I t p E) as [Pk Ow].
  pose proof (wordof_01 o) as W01. rewrite <- W in W01.
  pose proof (fun w Hw => retry_ok w Hw) as RO.
  inversion T; subst; cbn [own] in Ow;
    try (exists o; split; [reflexivity|]; eapply inv_same; [exact I|exact E|exact U|reflexivity|
         first [exact Logic.I|exact Pk|apply RO; exact W01|apply (after_load_ok _ W01)|eapply try_head_ok; eassumption|idtac]|
         first [reflexivity|apply RO; exact W01|apply (after_load_ok _ W01)|eapply try_head_ok; eassumption|idtac]]; fail).
  - (* LCas *) cbn in Pk. assert (o = None) as -> by (destruct o; [cbn in W; congruence|reflexivity]). exists (Some t). split; [reflexivity|].
    eapply inv_acquire; [exact I|exact E|exact U|cbn; rewrite Pk; reflexivity|exact Logic.I|reflexivity].
  - (* MCas *) destruct Pk.
  - (* ACas *) cbn in Pk. destruct Pk as [P1 P2]. assert (o = None) as -> by (destruct o; [cbn in W; congruence|reflexivity]). exists (Some t). split; [reflexivity|].
    eapply inv_acquire; [exact I|exact E|exact U|exact P2|exact Logic.I|reflexivity].
  - (* UCas *) assert (Ho : o = Some t) by (apply Ow; reflexivity). subst o. cbn in W. rewrite W in U |- *. exists None. split; [cbn; rewrite Nat.eqb_refl; reflexivity|].
    eapply inv_release; [exact I|exact E|exact U|reflexivity|exact Logic.I|reflexivity].
  - (* try fails *) exists o. split.
    + destruct o; [reflexivity|]. cbn in W. rewrite W in *. discriminate.
    + eapply inv_same; [exact I|exact E|exact U|reflexivity|exact Logic.I|reflexivity].
  - (* TCas *) cbn in Pk. assert (o = None) as -> by (destruct o; [cbn in W; congruence|reflexivity]). exists (Some t). split; [reflexivity|].
    eapply inv_acquire; [exact I|exact E|exact U|cbn; rewrite Pk; reflexivity|exact Logic.I|reflexivity].
  - exists o. split.
    + destruct o; [reflexivity|]. cbn in W. rewrite W in *. discriminate.
    + eapply inv_same; [exact I|exact E|exact U|reflexivity|exact Logic.I|reflexivity].
Qed.

Lemma inv_init n : Inv (init n) None.
Proof.
  constructor; cbn.
  - reflexivity.
  - intros t p H. apply nth_error_In in H. apply repeat_spec in H. subst p. split; [exact I|]. split; discriminate.
  - discriminate.
Qed.

Lemma inv_exec md lot addr n evs s : exec md lot addr (init n) evs s -> exists o, legal None evs = Some o /\ Inv s o.
Proof.
  intros H. remember (init n) as s0 eqn:E. induction H as [s|s evs s1 e s2 H IH St]; subst.
  - exists None. split; [reflexivity|apply inv_init].
  - destruct (IH eq_refl) as (o & L & Io). destruct (inv_step _ _ _ _ _ _ _ Io St) as (o' & L' & I'). exists o'. split; [|exact I'].
    rewrite legal_app, L. exact L'.
Qed.
Lemma inv_owns s o t : Inv s o -> owns s t <-> o = Some t.
Proof.
  intros I. split.
  - intros (p & E & X). apply (i_thr _ _ I t p E). destruct p; try destruct X; reflexivity.
  - intros E. pose proof (i_in _ _ I t E) as L. destruct (nth_error (thr s) t) as [p|] eqn:Ep; [|apply nth_error_None in Ep; lia].
    exists p. split; [exact Ep|]. destruct (i_thr _ _ I t p Ep) as [_ B]. apply B in E. destruct p; try discriminate; exact Logic.I.
Qed.
