(** Bucketed hash table: every step of every thread preserves the invariant; no undefined behaviour. *)
From Verif Require Import Prelude BhtModel BhtSpec BhtProofs.
Local Open Scope nat_scope.

Section P.
Context {K : Type}.
Variable keq : forall a b : K, {a = b} + {a <> b}.
Variable sent : K.
Variable h : nat -> K -> nat.
Variable B : nat.
Variable W : Z.
Notation table := (@table K). Notation op := (@op K).
Notation thread := (@thread K).
Notation off := (off h B). Notation nb := (@nb K B).
Notation stored := (stored sent). Notation passed := (passed sent h B). Notation wft := (wft sent h B). Notation grows := (grows sent).
Notation inv := (inv sent h B). Notation tok := (tok sent h B). Notation op_ok := (op_ok sent).
Notation thread_step := (thread_step keq sent h B W).
Notation failure := (failure W).

(** what a returned value means in the table after the step *)
Definition ret_ok (t : table) (own : list (Z * nat)) (x : op * Z) : Prop :=
  let '(o, r) := x in
  (r = (-1)%Z /\ exists s, stored t s (okey o)) \/ ((0 <= r)%Z /\ exists s, In (r, s) own /\ stored t s (okey o))
  \/ (r = failure /\ (nb t = 0 \/ (succ t = false /\ (passed t (okey o) 3 0
        \/ exists s n, In (n, s) own /\ stored t s (okey o) /\ ((Z.of_nat (tsize t) - 20) mod W <= n mod W)%Z)))).
Definition opt {A} (P : A -> Prop) (x : option A) : Prop := match x with Some a => P a | None => True end.

Lemma own_count : forall mode t ths own, inv mode t ths own -> length own <= tsize t.
Proof.
  intros mode t ths own I. rewrite <- (map_length snd), <- (seq_length (tsize t) 0).
  apply NoDup_incl_length; [apply (i_nodup _ _ _ _ _ _ _ I)|]. intros s Hs.
  apply in_map_iff in Hs. destruct Hs as ([n s'] & E & Hin). simpl in E; subst s'.
  destruct (i_own _ _ _ _ _ _ _ I n s Hin) as (k & Hk & _). apply in_seq. pose proof (stored_range _ _ _ _ _ _ (i_wf _ _ _ _ _ _ _ I) Hk). lia.
Qed.
Lemma own_index : forall t ths own n s, inv true t ths own -> In (n, s) own -> (0 <= n)%Z /\ Z.to_nat n < cnt t /\ cnt t = length own.
Proof.
  intros t ths own n s I Hin. pose proof (i_mode _ _ _ _ _ _ _ I) as M. simpl in M.
  assert (In n (map fst own)) as Hn by (apply in_map_iff; exists (n, s); auto).
  rewrite M in Hn. apply in_map_iff in Hn. destruct Hn as (m & E & Hm). apply in_seq in Hm. subst n.
  assert (cnt t = length own) by (rewrite <- (map_length fst own), M, map_length, seq_length; reflexivity). lia.
Qed.

Lemma fst_fun : forall t ths own n s s', inv true t ths own -> In (n, s) own -> In (n, s') own -> s = s'.
Proof.
  intros t ths own n s s' I. pose proof (i_mode _ _ _ _ _ _ _ I) as M. simpl in M.
  assert (ND : NoDup (map fst own)). { rewrite M. apply FinFun.Injective_map_NoDup; [intros a b; lia|apply seq_NoDup]. }
  clear M I. induction own as [|[m r] own IH]; intros H1 H2; [destruct H1|]. simpl in ND. inversion ND; subst.
  destruct H1 as [H1|H1], H2 as [H2|H2].
  - congruence.
  - inversion H1; subst. elim H3. apply in_map_iff. exists (n, s'); auto.
  - inversion H2; subst. elim H3. apply in_map_iff. exists (n, s); auto.
  - apply IH; auto.
Qed.

(** the frame for steps that change no shared data except possibly the success flag *)
Lemma inv_quiet : forall mode t ths own i th th' ths' t',
  inv mode t ths own -> nth_error ths i = Some th -> upd ths i th' = Some ths' -> (t' = t \/ t' = set_fail t) ->
  tok t own th' -> Forall (op_ok mode (firstn (cnt t) (act t))) (ops_of th') -> slot_of th = None -> slot_of th' = None -> inv mode t' ths' own.
Proof.
  intros mode t ths own i th th' ths' t' I Hi Hu Ht Tk Ho S1 S2.
  assert (G : grows t t') by (destruct Ht; subst; split; auto).
  assert (Hw : wft t'). { destruct Ht; subst; [apply I|]. eapply wft_same_keys; [apply I|..]; reflexivity. }
  assert (E : act t' = act t /\ cnt t' = cnt t /\ inds t' = inds t /\ keys t' = keys t /\ tsize t' = tsize t) by (destruct Ht; subst; repeat split).
  destruct E as (Ea & Ec & Ei & Ek & Es).
  eapply inv_step; eauto.
  - destruct Ht; subst; auto.
  - rewrite Ea, Ec. auto.
  - intros s n Hs. left. congruence.
  - intros s Hs. congruence.
  - intros n s k Hin Hs D. unfold done in *. rewrite Ei, Ea. auto.
  - intros n s k Hin Hs P. apply pend_slot in P. congruence.
  - intros s k Hs. left. unfold BhtProofs.stored in *. rewrite <- Ek. auto.
  - intros s o Hc. unfold slot_of in S1. rewrite Hc in S1. discriminate.
  - destruct mode; simpl in *; pose proof (i_mode _ _ _ _ _ _ _ I) as M; simpl in M; rewrite Ec; auto.
Qed.

Lemma ops_cons : forall mode a o p r, Forall (op_ok mode a) (ops_of {| cur := Some (o, p); todo := r |}) -> op_ok mode a o /\ Forall (op_ok mode a) r.
Proof. intros mode a o p r H. unfold ops_of in H. cbn in H. inversion H; auto. Qed.

Lemma upd_total : forall {A} (l : list A) i x, i < length l -> exists l', upd l i x = Some l'.
Proof. intros A l i x H. apply upd_some. exact H. Qed.

Theorem inv_thread : 3 <= B -> forall mode t ths own i th, inv mode t ths own -> nth_error ths i = Some th ->
  match thread_step t th with
  | Crash => False
  | Done => cur th = None /\ todo th = []
  | Run t' th' ret => forall ths', upd ths i th' = Some ths' -> grows t t' /\
      exists own', inv mode t' ths' own' /\ (forall x, In x own -> In x own') /\ opt (ret_ok t' own') ret
  end.
Proof.
  intros HB mode t ths own i [c r] I Hi.
  pose proof (i_tok _ _ _ _ _ _ _ I i _ Hi) as T. pose proof (i_ops _ _ _ _ _ _ _ I i _ Hi) as O.
  pose proof (i_wf _ _ _ _ _ _ _ I) as Hw.
  destruct c as [[o p]|]; unfold BhtModel.thread_step; cbn [cur todo].
  2:{ (* between calls *)
    destruct r as [|o r]; [auto|]. unfold begin. destruct (Nat.eqb_spec (nb t) 0) as [E|E]; cbn [after]; intros ths' Hu.
    - split; [apply grows_refl|]. exists own. split; [|split; [auto|cbn; right; right; auto]].
      eapply inv_quiet; eauto; try reflexivity; try exact Logic.I. unfold ops_of in *; cbn in *. inversion O; auto.
    - split; [apply grows_refl|]. exists own. split; [|split; [auto|exact Logic.I]].
      eapply inv_quiet; eauto; try reflexivity. cbn. split; [auto|]. split; [lia|]. split; [lia|]. intros it' ld' [[]|[]]; lia. }
  apply ops_cons in O. destruct O as [Oo Or]. unfold BhtProofs.tok in T. cbn in T. destruct T as [Tn T].
  assert (Roff : forall k it ld, ld < B -> off t k it + ld < length (keys t)).
  { intros k it ld Hl. rewrite (w_keys _ _ _ _ Hw), (w_mult _ _ _ _ Hw). unfold BhtModel.off. apply off_in_range; auto. }
  assert (Hr0 : Forall (op_ok mode (firstn (cnt t) (act t))) (ops_of {| cur := None; todo := r |})) by (unfold ops_of; cbn; auto).
  assert (Hro : forall p', Forall (op_ok mode (firstn (cnt t) (act t))) (ops_of {| cur := Some (o, p'); todo := r |})) by (intro; unfold ops_of; cbn; auto).
  destruct p as [it ld|it ld|s|s n|s n]; cbn [step_op].
  - (* Load *)
    destruct T as (Ti & Tl & Tp). destruct (Nat.eqb_spec ld B) as [E|E]; [lia|].
    destruct (nth_error_lt_some (keys t) (off t (okey o) it + ld)) as [c Hc]; [apply Roff; lia|]. rewrite Hc.
    destruct (keq c (okey o)) as [E1|E1].
    { cbn [after]. intros ths' Hu. split; [apply grows_refl|]. exists own. split; [|split; [auto|]].
      - eapply inv_quiet; eauto; try reflexivity; try exact Logic.I.
      - cbn. left. split; [reflexivity|]. exists (off t (okey o) it + ld). subst c. split; [auto|apply Oo]. }
    assert (Hnext : c = sent -> ld = B - 1 \/ ld < B - 1) by lia.
    destruct (keq c sent) as [E2|E2].
    + destruct (Nat.leb_spec ld (threshold B)) as [E3|E3].
      * cbn [after]. unfold threshold in E3. intros ths' Hu. split; [apply grows_refl|]. exists own. split; [|split; [auto|exact Logic.I]].
        eapply inv_quiet; eauto; try reflexivity. cbn. repeat split; auto; lia.
      * assert (Eld : ld = B - 1) by (unfold threshold in E3; lia). unfold next_bucket.
        destruct (Nat.ltb_spec (S it) 3) as [E4|E4]; cbn [after]; intros ths' Hu.
        -- split; [apply grows_refl|]. exists own. split; [|split; [auto|exact Logic.I]].
           eapply inv_quiet; eauto; try reflexivity. cbn. split; [auto|]. split; [lia|]. split; [lia|].
           intros it' ld' [[A C]|[A C]]; [|lia]. apply Tp. subst ld. destruct (Nat.eq_dec it' it); [right; lia|left; lia].
        -- split; [split; auto|]. exists own. split; [|split; [auto|]].
           ++ eapply inv_quiet; eauto; try reflexivity; try exact Logic.I.
           ++ cbn. right. right. split; [reflexivity|]. right. split; [reflexivity|]. left. apply (passed_grows sent h B t (set_fail t)); [split; auto|].
              intros it' ld' [[A C]|[A C]]; [|lia]. apply Tp. subst ld. destruct (Nat.eq_dec it' it); [right; lia|left; lia].
    + cbn [after]. intros ths' Hu. split; [apply grows_refl|]. exists own. split; [|split; [auto|exact Logic.I]].
      assert (ld <> B - 1).
      { intros C. subst ld. unfold BhtModel.off in Hc. rewrite (w_last _ _ _ _ Hw) in Hc; [congruence|]. apply Nat.mod_upper_bound; auto. }
      eapply inv_quiet; eauto; try reflexivity. cbn. split; [auto|]. split; [lia|]. split; [lia|].
      intros it' ld' [[A C]|[A C]]; [apply Tp; left; auto|]. subst it'. destruct (Nat.eq_dec ld' ld) as [F|F]; [|apply Tp; right; lia].
      subst ld'. exists c. split; [split; auto|auto].
  - (* Cas *)
    destruct T as (Ti & Tl & Tp). set (s := off t (okey o) it + ld) in *.
    destruct (nth_error_lt_some (keys t) s) as [c Hc]; [apply Roff; lia|]. rewrite Hc.
    destruct (keq c sent) as [E1|E1].
    2:{ cbn [after]. intros ths' Hu. split; [apply grows_refl|]. exists own. split; [|split; [auto|exact Logic.I]].
        eapply inv_quiet; eauto; try reflexivity. cbn. repeat split; auto; lia. }
    subst c. destruct (upd_total (keys t) s (okey o)) as [ks Hks]; [apply Roff; lia|]. rewrite Hks. cbn [after]. intros ths' Hu.
    assert (G : grows t (set_keys t ks)) by (eapply claim_grows; eauto).
    assert (Hw' : wft (set_keys t ks)) by (eapply (wft_claim sent h B t (okey o) it ld); eauto; lia).
    assert (Hst : stored (set_keys t ks) s (okey o)) by (split; [cbn; apply (upd_nth_eq _ _ _ _ Hks)|apply Oo]).
    assert (Hold : forall s' k, stored (set_keys t ks) s' k -> stored t s' k \/ s' = s).
    { intros s' k [A C]. destruct (Nat.eq_dec s' s) as [F|F]; [auto|left]. split; [|auto]. cbn in A. rewrite (upd_nth_neq _ _ _ _ _ Hks) in A; auto. }
    assert (Hfree : forall k, ~ stored t s k) by (intros k [A C]; congruence).
    assert (Hfo : ~ In s (map snd own)).
    { intros C. apply in_map_iff in C. destruct C as ([n s'] & E & C). simpl in E; subst s'.
      destruct (i_own _ _ _ _ _ _ _ I n s C) as (k & Hk & _). elim (Hfree k Hk). }
    split; [exact G|]. destruct (Z.eq_dec (oidx o) sentinel) as [E2|E2].
    + exists own. split; [|split; [auto|exact Logic.I]]. eapply inv_step; eauto.
      * cbn. repeat split; auto; apply Hst.
      * cbn. intros s' Hs'. inversion Hs'; subst s'. right. auto.
      * intros n s' k Hin Hs' [x [P|P]]; discriminate P.
      * intros s' k Hs'. destruct (Hold s' k Hs') as [A|A]; [auto|]. subst s'. right. right. exists o. reflexivity.
      * intros s' o' C. discriminate C.
      * exact (i_mode _ _ _ _ _ _ _ I).
    + exists (own ++ [(oidx o, s)]). split; [|split; [intros; apply in_or_app; auto|exact Logic.I]]. eapply inv_step; eauto.
      * cbn. split; [auto|]. split; [auto|]. split; [apply in_or_app; right; left; reflexivity|auto].
      * cbn. intros s' Hs'. inversion Hs'; subst s'. right. auto.
      * right. exists (oidx o), s. split; [reflexivity|]. split; [auto|]. exists o. left. reflexivity.
      * intros n s' k Hin Hs' [x [P|P]]; discriminate P.
      * intros s' k Hs'. destruct (Hold s' k Hs') as [A|A]; [auto|]. subst s'. right. left. rewrite map_app. apply in_or_app. right. left. reflexivity.
      * intros s' o' C. discriminate C.
      * destruct mode.
        -- destruct Oo as (_ & Oo & _). elim E2. exact Oo.
        -- destruct Oo as (_ & Oe & Oi & On). intros n s' Hin. apply in_app_or in Hin. destruct Hin as [Hin|[Hin|[]]].
           ++ apply (i_mode _ _ _ _ _ _ _ I n s' Hin).
           ++ inversion Hin; subst n s'. split; [auto|]. apply nth_error_some_lt in On. rewrite firstn_length in On. cbn [cnt set_keys]. lia.
  - (* Count *)
    destruct T as (Ts & Tf & Td). cbn [after]. intros ths' Hu.
    destruct mode; [|destruct Oo as (_ & _ & Oi & _); lia].
    assert (G : grows t (set_cnt t (S (cnt t)))) by (split; auto).
    split; [exact G|]. exists (own ++ [(Z.of_nat (cnt t), s)]). split; [|split; [intros; apply in_or_app; auto|exact Logic.I]].
    eapply inv_step; eauto.
    + eapply wft_same_keys; eauto.
    + cbn. split; [auto|]. split; [auto|]. split; [apply in_or_app; right; left; reflexivity|]. destruct Oo as (_ & _ & Oe). congruence.
    + discriminate.
    + right. exists (Z.of_nat (cnt t)), s. split; [reflexivity|]. split; [auto|]. exists o. left. reflexivity.
    + intros n s' k Hin Hs' [x [P|P]]; discriminate P.
    + intros s' o' C. inversion C; subst. left. rewrite map_app. apply in_or_app. right. left. reflexivity.
    + pose proof (i_mode _ _ _ _ _ _ _ I) as M. unfold own_mode in *. cbn [cnt set_cnt]. rewrite seq_S, !map_app, M. reflexivity.
  - (* WIdx *)
    destruct T as (Ts & To & Te).
    destruct (upd_total (inds t) s n) as [xs Hxs]; [rewrite (w_inds _ _ _ _ Hw); eapply stored_range; eauto|]. rewrite Hxs.
    assert (G : grows t (set_inds t xs)) by (split; auto).
    assert (Hw' : wft (set_inds t xs)) by (eapply wft_same_keys; eauto; cbn; apply (upd_length _ _ _ _ Hxs)).
    assert (Hd : forall n' s' k, In (n', s') own -> stored t s' k -> done t n' s' k -> done (set_inds t xs) n' s' k).
    { intros n' s' k Hin Hs' (D1 & D2 & D3). split; [|split; auto]. cbn. destruct (Nat.eq_dec s' s) as [F|F].
      - subst s'. rewrite (upd_nth_eq _ _ _ _ Hxs). f_equal. apply (snd_fun own n n' s); auto. apply (i_nodup _ _ _ _ _ _ _ I).
      - rewrite (upd_nth_neq _ _ _ _ _ Hxs); auto. }
    assert (Hi' : forall s' n', nth_error (inds t) s' = Some n' -> nth_error (inds (set_inds t xs)) s' = Some n' \/ Some s = Some s').
    { intros s' n' Hn. destruct (Nat.eq_dec s' s) as [F|F]; [subst; auto|]. left. cbn. rewrite (upd_nth_neq _ _ _ _ _ Hxs); auto. }
    destruct (oenq o) eqn:Een.
    + cbn [after]. intros ths' Hu. split; [exact G|]. exists own. split; [|split; [auto|exact Logic.I]]. eapply inv_step; eauto.
      * cbn. split; [auto|]. split; [auto|]. split; [auto|]. split; [apply (upd_nth_eq _ _ _ _ Hxs)|auto].
      * intros n' s' k Hin Hs' [x [P|P]]; inversion P; subst. right. exists x. right. reflexivity.
      * intros s' o' C. discriminate C.
      * exact (i_mode _ _ _ _ _ _ _ I).
    + destruct mode; [destruct Oo as (_ & _ & Oe); congruence|]. pose proof Oo as (Ok & _ & Oi & On). specialize (Te eq_refl). subst n.
      assert (Hret : forall t', keys t' = keys t -> inds t' = xs -> act t' = act t -> cnt t' = cnt t -> tsize t' = tsize t ->
        forall ths', upd ths i {| cur := None; todo := r |} = Some ths' -> grows t t' /\ inv false t' ths' own).
      { intros t' E1 E2 E3 E4 E5 ths' Hu. assert (G' : grows t t') by (split; [auto|]; unfold BhtProofs.stored; rewrite E1; auto). split; [exact G'|].
        eapply inv_step; eauto.
        - apply (wft_same_keys sent h B (set_inds t xs)); auto; cbn; congruence.
        - exact Logic.I.
        - rewrite E3, E4. auto.
        - rewrite E2. exact Hi'.
        - cbn. discriminate.
        - intros n' s' k Hin Hs' D. destruct (Hd n' s' k Hin Hs' D) as (D1 & D2 & D3). split; [rewrite E2; exact D1|]. split; [auto|]. rewrite E3. exact D3.
        - intros n' s' k Hin Hs' [x [P|P]]; inversion P; subst. left. split; [apply (upd_nth_eq _ _ _ _ Hxs)|]. split; [auto|]. rewrite E3.
          assert (k = okey x) by (eapply stored_fun; eauto). subst k.
          revert On. clear. intros On.
          rewrite <- (firstn_skipn (cnt t) (act t)), nth_error_app1; [exact On|]. eapply nth_error_some_lt; eauto.
        - intros s' k [A C]. left. split; [congruence|auto].
        - intros s' o' C. discriminate C.
        - intros n' s' Hin. rewrite E4. apply (i_mode _ _ _ _ _ _ _ I n' s' Hin). }
      unfold finish; cbn [tsize set_inds set_act]; destruct (Z.leb_spec ((Z.of_nat (tsize t) - 20) mod W) ((oidx o) mod W)) as [Hlim|Hlim]; cbn [after]; intros ths' Hu.
      * destruct (Hret (set_fail (set_inds t xs)) eq_refl eq_refl eq_refl eq_refl eq_refl ths' Hu) as [A C]. split; [exact A|]. exists own. split; [exact C|]. split; [auto|].
        cbn. right. right. split; [auto|]. right. split; [auto|]. right. exists s, (oidx o). split; [auto|]. split; [exact Ts|exact Hlim].
      * destruct (Hret (set_inds t xs) eq_refl eq_refl eq_refl eq_refl eq_refl ths' Hu) as [A C]. split; [exact A|]. exists own. split; [exact C|]. split; [auto|].
        cbn. right. left. split; [auto|]. exists s. auto.
  - (* WAct *)
    destruct T as (Ts & To & Tx & Te). destruct mode; [|destruct Oo as (_ & Oe & _); congruence].
    destruct (own_index t ths own n s I To) as (N0 & N1 & N2). pose proof (own_count _ _ _ _ I) as N3.
    destruct (Z.ltb_spec n 0); [lia|].
    destruct (upd_total (act t) (Z.to_nat n) (okey o)) as [ks Hks]; [rewrite (w_act _ _ _ _ Hw); lia|]. rewrite Hks.
    assert (Hret : forall t', keys t' = keys t -> inds t' = inds t -> act t' = ks -> cnt t' = cnt t -> tsize t' = tsize t ->
        forall ths', upd ths i {| cur := None; todo := r |} = Some ths' -> grows t t' /\ inv true t' ths' own).
    { intros t' E1 E2 E3 E4 E5 ths' Hu. assert (G' : grows t t') by (split; [auto|]; unfold BhtProofs.stored; rewrite E1; auto). split; [exact G'|].
      eapply inv_step; eauto.
      - apply (wft_same_keys sent h B t); auto; cbn; try congruence. rewrite E3. apply (upd_length _ _ _ _ Hks).
      - exact Logic.I.
      - discriminate.
      - intros s' n' Hn. left. congruence.
      - cbn. discriminate.
      - intros n' s' k Hin Hs' (D1 & D2 & D3). split; [congruence|]. split; [auto|]. rewrite E3. destruct (Z.eq_dec n' n) as [F|F].
        + subst n'. assert (s' = s) by (eapply fst_fun; eauto). subst s'. assert (k = okey o) by (eapply stored_fun; eauto). subst k. apply (upd_nth_eq _ _ _ _ Hks).
        + rewrite (upd_nth_neq _ _ _ _ _ Hks); [auto|lia].
      - intros n' s' k Hin Hs' [x [P|P]]; inversion P; subst. left. split; [congruence|]. split; [auto|].
        assert (k = okey x) by (eapply stored_fun; eauto). subst k. apply (upd_nth_eq _ _ _ _ Hks).
      - intros s' k [A C]. left. split; [congruence|auto].
      - intros s' o' C. discriminate C.
      - pose proof (i_mode _ _ _ _ _ _ _ I) as M. unfold own_mode in *. rewrite E4. exact M. }
    unfold finish; cbn [tsize set_inds set_act]; destruct (Z.leb_spec ((Z.of_nat (tsize t) - 20) mod W) (n mod W)) as [Hlim|Hlim]; cbn [after]; intros ths' Hu.
    + destruct (Hret (set_fail (set_act t ks)) eq_refl eq_refl eq_refl eq_refl eq_refl ths' Hu) as [A C]. split; [exact A|]. exists own. split; [exact C|]. split; [auto|].
      cbn. right. right. split; [auto|]. right. split; [auto|]. right. exists s, n. split; [auto|]. split; [exact Ts|exact Hlim].
    + destruct (Hret (set_act t ks) eq_refl eq_refl eq_refl eq_refl eq_refl ths' Hu) as [A C]. split; [exact A|]. exists own. split; [exact C|]. split; [auto|].
      cbn. right. left. split; [auto|]. exists s. auto.
Qed.
End P.
