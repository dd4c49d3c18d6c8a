(* Ownership invariant of zs::Owner. *)
From Verif Require Import Prelude FnModel FnSpec FnProofs OwnModel OwnSpec.

Definition oowned (f : owner) : list nat := if active f then [oid f] else [].

Lemma osplit : forall (l : list owner) d f, nth_error l d = Some f -> exists rest,
  Permutation (flat_map oowned l) (oowned f ++ rest) /\
  forall f', Permutation (flat_map oowned (setn l d f')) (oowned f' ++ rest).
Proof.
  induction l as [|g l IH]; intros [|d] f H; cbn in H; try discriminate.
  - injection H as <-. exists (flat_map oowned l). split; [reflexivity|]. intros f'. reflexivity.
  - destruct (IH d f H) as (rest & P & Q). exists (oowned g ++ rest). split.
    + cbn [flat_map]. rewrite P. rewrite !app_assoc. apply Permutation_app_tail. apply Permutation_app_comm.
    + intros f'. cbn [setn flat_map]. rewrite Q. rewrite !app_assoc. apply Permutation_app_tail. apply Permutation_app_comm.
Qed.

Definition ok (tr : list event) (l : list owner) (n : nat) : Prop :=
  exists al, alive_after tr [] = Some al /\ Permutation al (flat_map oowned l) /\ NoDup al /\ forall i, In i al -> i < n.

Lemma ok_release : forall tr l n d f f', ok tr l n -> nth_error l d = Some f -> active f' = false ->
  ok (tr ++ release f) (setn l d f') n.
Proof.
  intros tr l n d f f' (al & E & P & N & B) Nf A. destruct (osplit _ _ _ Nf) as (rest & P1 & Q).
  specialize (Q f'). unfold oowned at 2 in Q. rewrite A in Q. cbn [app] in Q.
  unfold release, oowned in *. destruct (active f) eqn:Af.
  - cbn [app] in P1. assert (P2 : Permutation al (oid f :: rest)) by (eapply Permutation_trans; eauto).
    exists (remove Nat.eq_dec (oid f) al). rewrite alive_app, E. cbn [alive_after].
    destruct (in_dec Nat.eq_dec (oid f) al) as [I|I].
    2:{ exfalso. apply I. apply (Permutation_in _ (Permutation_sym P2)). left; reflexivity. }
    pose proof (remove_perm _ _ _ N P2) as R. repeat split; auto.
    + rewrite R. symmetry. exact Q.
    + assert (N' : NoDup (oid f :: rest)) by (eapply Permutation_NoDup; eauto). inversion N'; subst.
      eapply Permutation_NoDup; [apply Permutation_sym; exact R|assumption].
    + intros i Hi. apply in_remove in Hi. apply B. tauto.
  - exists al. rewrite app_nil_r. repeat split; auto. cbn [app] in P1. rewrite Q, <- P1. exact P.
Qed.

Lemma ok_create : forall tr l n d f v, ok tr l n -> nth_error l d = Some f -> active f = false ->
  ok (tr ++ [Ctor n]) (setn l d (mkOwner n v true)) (S n).
Proof.
  intros tr l n d f v (al & E & P & N & B) Nf A. destruct (osplit _ _ _ Nf) as (rest & P1 & Q).
  unfold oowned at 2 in P1. rewrite A in P1. cbn [app] in P1.
  exists (n :: al). rewrite alive_app, E. cbn [alive_after].
  destruct (in_dec Nat.eq_dec n al) as [I|I]; [specialize (B _ I); lia|]. repeat split; auto.
  - rewrite (Q (mkOwner n v true)). cbn. apply perm_skip. rewrite <- P1. exact P.
  - constructor; assumption.
  - intros i [<-|Hi]; [lia|]. specialize (B _ Hi). lia.
Qed.

(* an update that keeps object and flag *)
Lemma ok_same : forall tr l n d f f', ok tr l n -> nth_error l d = Some f ->
  oowned f' = oowned f -> ok tr (setn l d f') n.
Proof.
  intros tr l n d f f' (al & E & P & N & B) Nf A. destruct (osplit _ _ _ Nf) as (rest & P1 & Q).
  exists al. repeat split; auto. rewrite (Q f'), A, <- P1. exact P.
Qed.

Lemma ok_read : forall tr l n d f, ok tr l n -> nth_error l d = Some f -> active f = true ->
  ok (tr ++ [Read (oid f)]) l n.
Proof.
  intros tr l n d f (al & E & P & N & B) Nf A. exists al. rewrite alive_app, E. cbn [alive_after].
  destruct (in_dec Nat.eq_dec (oid f) al) as [I|I]; [repeat split; auto|].
  exfalso. apply I. apply (Permutation_in _ (Permutation_sym P)). apply in_flat_map. exists f.
  split; [eapply nth_error_In; eauto|]. unfold oowned. rewrite A. left; reflexivity.
Qed.

Lemma setn_setn : forall A (l : list A) d x y, setn (setn l d x) d y = setn l d y.
Proof. induction l; intros [|d] x y; cbn; auto. rewrite IHl. reflexivity. Qed.
Lemma setn_same : forall A (l : list A) d x, nth_error l d = Some x -> setn l d x = l.
Proof. induction l; intros [|d] x H; cbn in *; try discriminate; [congruence|]. rewrite IHl; auto. Qed.

Record oinv (st : ostate) (vs : list content) : Prop := {
  oi_vals : Forall2 shows (oslots st) vs;
  oi_ok : ok (otrace st) (oslots st) (ofresh st) }.

Lemma oinit_inv : forall n, oinv (oinit n) (repeat None n).
Proof.
  intros n. constructor; cbn [oinit oslots otrace ofresh].
  - induction n; cbn; constructor; auto. reflexivity.
  - exists []. repeat split.
    + induction n; cbn; auto.
    + constructor.
    + intros i [].
Qed.

Lemma assign_ok : forall a tr l n d f v th f' n' ev t, ok tr l n -> nth_error l d = Some f ->
  (th = true -> active f = false) ->
  assign_value a f v n th = (f', n', ev, t) ->
  ok (tr ++ ev) (setn l d f') n' /\ t = andb th true /\ (if th then f' = f else active f' = true /\ oval f' = v).
Proof.
  intros a tr l n d f v th f' n' ev t O Nf T E. unfold assign_value in E.
  destruct a.
  - destruct (active f) eqn:A.
    + destruct th; [specialize (T eq_refl); discriminate|]. injection E as <- <- <- <-.
      split; [|repeat split]. eapply ok_same; [eapply ok_read; eauto|exact Nf|]. unfold oowned. cbn. rewrite A. reflexivity.
    + destruct th; injection E as <- <- <- <-.
      * rewrite app_nil_r. split; [|split; reflexivity]. eapply ok_same; eauto.
      * split; [|repeat split]. eapply ok_create; eauto.
  - destruct th; injection E as <- <- <- <-.
    + specialize (T eq_refl). split; [|split; reflexivity]. eapply ok_release; eauto.
    + split; [|repeat split]. rewrite app_assoc.
      rewrite <- (setn_setn _ l d (mkOwner 0 None false)).
      eapply ok_create; [eapply (ok_release _ _ _ _ _ (mkOwner 0 None false)); eauto|eapply setn_nth_eq; eauto|reflexivity].
Qed.

Lemma ostep_inv : forall a st vs o, oinv st vs -> otame a vs o -> forall vs' t, oexpect vs o = Some (vs', t) ->
  exists st', ostep a st o = Some (st', t) /\ oinv st' vs'.
Proof.
  intros a st vs o [HV HO] T vs' t E.
  destruct o as [d v th|d|d s|d s|d s|d s|d]; cbn [oexpect ostep otame] in *; unfold oget.
  - destruct (nth_error vs d) as [c|] eqn:Nc; [|discriminate].
    destruct (F2_nth_r _ _ _ _ _ _ _ HV Nc) as (f & Nf & Hf). rewrite Nf.
    destruct (assign_value a f (Some v) (ofresh st) th) as [[[f' n'] ev] t'] eqn:EA.
    assert (TT : th = true -> active f = false).
    { intros ->. specialize (T eq_refl). injection T as ->. exact Hf. }
    destruct (assign_ok _ _ _ _ _ _ _ _ _ _ _ _ HO Nf TT EA) as (O' & -> & V).
    eexists. destruct th; injection E as <- <-; (split; [reflexivity|]); constructor; cbn [oput oslots otrace ofresh]; auto.
    + subst f'. eapply setn_F2l; eauto.
    + apply setn_F2; auto.
  - subst a. destruct (nth_error vs d) as [[c|]|] eqn:Nc; try discriminate. injection E as <- <-.
    destruct (F2_nth_r _ _ _ _ _ _ _ HV Nc) as (f & Nf & Hf). rewrite Nf.
    eexists. split; [reflexivity|]. constructor; cbn [oput oslots otrace ofresh].
    + eapply setn_F2l; eauto.
    + rewrite (setn_same _ _ _ _ Nf). eapply ok_read; eauto. apply Hf.
  - destruct (nth_error vs d) as [c|] eqn:Nc; [|discriminate].
    destruct (nth_error vs s) as [w|] eqn:Nw; [|discriminate]. injection E as <- <-.
    destruct (F2_nth_r _ _ _ _ _ _ _ HV Nc) as (f & Nf & Hf). rewrite Nf.
    destruct (F2_nth_r _ _ _ _ _ _ _ HV Nw) as (g & Ng & Hg). rewrite Ng.
    eexists. split; [reflexivity|]. constructor; cbn [oput oslots otrace ofresh].
    + apply setn_F2; auto.
    + rewrite app_nil_r. destruct T as [Eq|[T1 T2]].
      * subst s. rewrite Ng in Nf. injection Nf as ->. rewrite (setn_same _ _ _ _ Ng). exact HO.
      * injection T1 as ->. injection T2 as ->. eapply ok_same; eauto. unfold oowned. cbn in Hf, Hg. rewrite Hf, Hg. reflexivity.
  - destruct (nth_error vs d) as [c|] eqn:Nc; [|discriminate].
    destruct (nth_error vs s) as [w|] eqn:Nw; [|discriminate].
    destruct (F2_nth_r _ _ _ _ _ _ _ HV Nc) as (f & Nf & Hf). rewrite Nf.
    destruct (F2_nth_r _ _ _ _ _ _ _ HV Nw) as (g & Ng & Hg). rewrite Ng.
    destruct (Nat.eqb_spec d s) as [Eq|Ne].
    { injection E as <- <-. eexists. split; [reflexivity|]. constructor; auto. }
    destruct w as [x|]; cbn [shows] in Hg.
    + destruct Hg as [Ag Vg]. rewrite Ag. injection E as <- <-.
      destruct (assign_value a f (oval g) (ofresh st) false) as [[[f' n'] ev] t'] eqn:EA.
      pose proof (ok_read _ _ _ _ _ HO Ng Ag) as HR.
      destruct (assign_ok _ _ _ _ _ _ _ _ _ _ _ _ HR Nf (fun H => match Bool.diff_false_true H with end) EA) as (O' & -> & A' & V').
      eexists. split; [reflexivity|]. constructor; cbn [oput oslots otrace ofresh].
      * apply setn_F2; [|split; reflexivity]. apply setn_F2; auto. split; [exact A'|congruence].
      * rewrite app_nil_r. rewrite <- app_assoc in O'. cbn [app] in O'.
        eapply ok_same; [exact O'|rewrite setn_nth_neq by congruence; exact Ng|].
        unfold oowned; cbn. rewrite Ag. reflexivity.
    + rewrite Hg. injection E as <- <-. eexists. split; [reflexivity|]. constructor; cbn [oput oslots otrace ofresh].
      * apply setn_F2; auto. reflexivity.
      * eapply ok_release; eauto.
  - destruct (nth_error vs d) as [c|] eqn:Nc; [|discriminate].
    destruct (nth_error vs s) as [w|] eqn:Nw; [|discriminate].
    destruct (F2_nth_r _ _ _ _ _ _ _ HV Nc) as (f & Nf & Hf). rewrite Nf.
    destruct (F2_nth_r _ _ _ _ _ _ _ HV Nw) as (g & Ng & Hg). rewrite Ng.
    destruct (Nat.eqb_spec d s) as [Eq|Ne]; [discriminate|].
    pose proof (ok_release _ _ _ _ _ empty_owner HO Nf eq_refl) as HE.
    destruct w as [x|]; cbn [shows] in Hg.
    + destruct Hg as [Ag Vg]. rewrite Ag. injection E as <- <-.
      destruct (assign_value a empty_owner (oval g) (ofresh st) false) as [[[f' n'] ev] t'] eqn:EA.
      assert (Ng' : nth_error (setn (oslots st) d empty_owner) s = Some g) by (rewrite setn_nth_neq by congruence; exact Ng).
      pose proof (ok_read _ _ _ _ _ HE Ng' Ag) as HR.
      destruct (assign_ok _ _ _ _ _ _ _ _ _ _ _ _ HR (setn_nth_eq _ _ _ _ _ Nf) (fun H => match Bool.diff_false_true H with end) EA) as (O' & -> & A' & V').
      eexists. split; [reflexivity|]. constructor; cbn [oput oslots otrace ofresh].
      * apply setn_F2; [|split; reflexivity]. apply setn_F2; auto. split; [exact A'|congruence].
      * rewrite app_nil_r. rewrite setn_setn in O'. rewrite <- !app_assoc in O'. cbn [app] in O'.
        eapply ok_same; [exact O'|rewrite setn_nth_neq by congruence; exact Ng|].
        unfold oowned; cbn. rewrite Ag. reflexivity.
    + rewrite Hg. injection E as <- <-. eexists. split; [reflexivity|]. constructor; cbn [oput oslots otrace ofresh].
      * apply setn_F2; auto. reflexivity.
      * exact HE.
  - destruct T as [Ne T].
    destruct (nth_error vs d) as [c|] eqn:Nc; [|discriminate].
    destruct (nth_error vs s) as [w|] eqn:Nw; [|discriminate]. injection T as ->. injection E as <- <-.
    destruct (F2_nth_r _ _ _ _ _ _ _ HV Nc) as (f & Nf & Hf). rewrite Nf.
    destruct (F2_nth_r _ _ _ _ _ _ _ HV Nw) as (g & Ng & Hg). rewrite Ng.
    destruct (Nat.eqb_spec d s) as [Eq|_]; [congruence|].
    eexists. split; [reflexivity|]. constructor; cbn [oput oslots otrace ofresh].
    + apply setn_F2; auto.
    + eapply ok_release; eauto.
  - destruct (nth_error vs d) as [c|] eqn:Nc; [|discriminate]. injection E as <- <-.
    destruct (F2_nth_r _ _ _ _ _ _ _ HV Nc) as (f & Nf & Hf). rewrite Nf.
    eexists. split; [reflexivity|]. constructor; cbn [oput oslots otrace ofresh].
    + apply setn_F2; auto. reflexivity.
    + eapply ok_release; eauto.
Qed.

Lemma orun_inv : forall a ops st vs, oinv st vs -> oall_tame a vs ops -> forall vs' ts, oexpect_all vs ops = Some (vs', ts) ->
  exists st', orun a st ops = Some (st', ts) /\ oinv st' vs'.
Proof.
  intros a. induction ops as [|o os IH]; intros st vs I T vs' outs E; cbn [orun oexpect_all oall_tame] in *.
  - injection E as <- <-. eauto.
  - destruct T as [T1 T2]. destruct (oexpect vs o) as [[vs1 out]|] eqn:E1; [|discriminate].
    destruct (ostep_inv _ _ _ _ I T1 _ _ E1) as (st1 & S1 & I1). rewrite S1.
    destruct (oexpect_all vs1 os) as [[vs2 outs2]|] eqn:E2; [|discriminate]. injection E as <- <-.
    destruct (IH _ _ I1 T2 _ _ E2) as (st2 & S2 & I2). rewrite S2. eauto.
Qed.

(* releasing everything *)
Lemma orelease_all : forall a n st vs, oinv st vs -> length vs = n ->
  exists st' ts, orun a st (map ResetOwner (seq 0 n)) = Some (st', ts) /\ all_destroyed (otrace st').
Proof.
  intros a n st vs I L.
  assert (G : forall k s st vs, oinv st vs -> s + k = length vs -> (forall i, i < s -> nth_error vs i = Some None) ->
    exists st' ts vs', orun a st (map ResetOwner (seq s k)) = Some (st', ts) /\ oinv st' vs' /\ Forall (fun v => v = None) vs').
  { clear. induction k as [|k IH]; intros s st vs I L H; cbn [seq map orun].
    - exists st, [], vs. repeat split; auto. apply I. apply I. apply Forall_forall. intros v Hv.
      destruct (In_nth_error _ _ Hv) as (i & Hi). assert (i < length vs) by (apply nth_error_Some; congruence).
      specialize (H i). rewrite H in Hi by lia. congruence.
    - assert (exists c, nth_error vs s = Some c) as [c Nc].
      { destruct (nth_error vs s) eqn:N; [eauto|]. apply nth_error_None in N. lia. }
      assert (E : oexpect vs (ResetOwner s) = Some (setn vs s None, false)) by (cbn; rewrite Nc; reflexivity).
      assert (LL : length (setn vs s None) = length vs).
      { clear. revert s. induction vs; intros [|s]; cbn; auto. }
      destruct (ostep_inv a st vs (ResetOwner s) I Logic.I _ _ E) as (st1 & S1 & I1). rewrite S1.
      destruct (IH (S s) st1 _ I1) as (st' & ts & vs' & R & I' & A).
      + rewrite LL. lia.
      + intros i Hi. destruct (Nat.eq_dec i s) as [->|D]; [eapply setn_nth_eq; eauto|].
        rewrite setn_nth_neq by congruence. apply H. lia.
      + rewrite R. eauto 6. }
  destruct (G n 0 st vs I) as (st' & ts & vs' & R & I' & A); [lia|intros; lia|].
  exists st', ts. split; [exact R|]. destruct I' as [HV (al & E & P & _)].
  assert (Z : flat_map oowned (oslots st') = []).
  { clear - HV A. induction HV; [reflexivity|]. inversion A; subst. cbn [flat_map]. rewrite IHHV by assumption.
    unfold oowned. cbn in H. rewrite H. reflexivity. }
  rewrite Z in P. apply Permutation_sym, Permutation_nil in P. subst al. exact E.
Qed.
