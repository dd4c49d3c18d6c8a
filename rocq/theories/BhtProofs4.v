(** Bucketed hash table: dictionaries, handed out indices, resize, step bound. *)
From Verif Require Import Prelude BhtModel BhtSpec BhtProofs BhtProofs2 BhtProofs3.
Local Open Scope nat_scope.

Lemma nth_firstn : forall {A} (l : list A) n i, i < n -> nth_error (firstn n l) i = nth_error l i.
Proof. induction l; intros [|n] [|i] H; try lia; simpl; auto. apply IHl. lia. Qed.
Lemma table_size_mult : forall B e, 0 < B -> exists q, table_size B e = q * B.
Proof.
  intros B e H. unfold table_size. destruct (e =? 0); [exists 0; reflexivity|]. set (n := pow2_ge e * 2). clearbody n.
  exists (n / B + 1). pose proof (Nat.div_mod n B ltac:(lia)) as E. pose proof (Nat.mod_upper_bound n B ltac:(lia)).
  rewrite Nat.mul_add_distr_r. rewrite (Nat.mul_comm (n / B)). lia.
Qed.

Section P.
Context {K : Type}.
Variable keq : forall a b : K, {a = b} + {a <> b}.
Variable sent : K.
Variable h : nat -> K -> nat.
Variable B : nat.
Variable W : Z.
Notation table := (@table K). Notation op := (@op K).
Notation thread := (@thread K).
Notation off := (off h B). Notation nb := (@nb K B).
Notation stored := (stored sent). Notation passed := (passed sent h B). Notation wft := (wft sent h B). Notation grows := (grows sent).
Notation inv := (inv sent h B). Notation tok := (tok sent h B). Notation op_ok := (op_ok sent).
Notation thread_step := (thread_step keq sent h B W).
Notation step := (step keq sent h B W). Notation steps := (steps keq sent h B W).
Notation failure := (failure W).
Notation ret_ok := (ret_ok sent h B W).
Notation dictionary := (dictionary keq sent h B).
Notation sinv := (sinv sent h B W).

Lemma done_query : forall t n s k, wft t -> 0 < B -> stored t s k -> done t n s k -> query keq h B t k = Some n.
Proof. intros t n s k Hw HB Hs (D & _). unfold query. rewrite (query_slot_stored keq sent h B t k s Hw HB Hs). exact D. Qed.

(** quiescent tables *)
Lemma quiet_done : forall mode t own n s, inv mode t [] own -> In (n, s) own -> exists k, stored t s k /\ done t n s k.
Proof.
  intros mode t own n s I Hin. destruct (i_own _ _ _ _ _ _ _ I n s Hin) as (k & Hk & [D|(j & x & Hx & _)]); [eauto|destruct j; discriminate].
Qed.
Lemma quiet_cover : forall mode t own s k, inv mode t [] own -> stored t s k -> exists n, In (n, s) own /\ done t n s k.
Proof.
  intros mode t own s k I Hs. destruct (i_cover _ _ _ _ _ _ _ I s k Hs) as [D|(j & x & o & Hx & _)]; [|destruct j; discriminate].
  apply in_map_iff in D. destruct D as ([n s'] & E & Hin). simpl in E; subst s'. exists n. split; [auto|].
  destruct (quiet_done _ _ _ _ _ I Hin) as (k' & Hk & D). assert (k' = k) by (eapply stored_fun; eauto). subst. exact D.
Qed.
Lemma quiet_slot : forall t own i, inv true t [] own -> i < cnt t -> exists s, In (Z.of_nat i, s) own.
Proof.
  intros t own i I Hi. pose proof (i_mode _ _ _ _ _ _ _ I) as M. simpl in M.
  assert (In (Z.of_nat i) (map fst own)) as H. { rewrite M. apply in_map. apply in_seq. lia. }
  apply in_map_iff in H. destruct H as ([n s] & E & Hin). simpl in E; subst n. eauto.
Qed.
Lemma quiet_cnt : forall t own, inv true t [] own -> cnt t <= length (act t).
Proof.
  intros t own I. pose proof (i_mode _ _ _ _ _ _ _ I) as M. simpl in M.
  pose proof (own_count _ _ _ _ _ _ _ I) as C. rewrite (w_act _ _ _ _ (i_wf _ _ _ _ _ _ _ I)).
  assert (cnt t = length own) by (rewrite <- (map_length fst own), M, map_length, seq_length; reflexivity). lia.
Qed.
Lemma quiet_dictionary : 0 < B -> forall t own, inv true t [] own -> dictionary t (firstn (cnt t) (act t)).
Proof.
  intros HB t own I. pose proof (i_wf _ _ _ _ _ _ _ I) as Hw. pose proof (quiet_cnt t own I) as Hc.
  assert (Len : length (firstn (cnt t) (act t)) = cnt t) by (rewrite firstn_length; lia).
  assert (At : forall i k, i < cnt t -> nth_error (act t) i = Some k -> exists s, In (Z.of_nat i, s) own /\ stored t s k /\ done t (Z.of_nat i) s k).
  { intros i k Hi Hk. destruct (quiet_slot t own i I Hi) as [s Hin]. destruct (quiet_done _ _ _ _ _ I Hin) as (k' & Hs & D).
    exists s. split; [auto|]. assert (k' = k). { destruct D as (_ & _ & D). rewrite Nat2Z.id in D. congruence. } subst. auto. }
  assert (InKs : forall s k, stored t s k -> In k (firstn (cnt t) (act t))).
  { intros s k Hs. destruct (quiet_cover _ _ _ _ _ I Hs) as (n & Hin & D1 & D2 & D3).
    destruct (own_index _ _ _ _ _ _ _ _ I Hin) as (_ & Hn & _). apply (nth_error_In _ (Z.to_nat n)). rewrite nth_firstn; auto. }
  repeat split.
  - apply NoDup_nth_error. intros i j Hi E. rewrite Len in Hi. rewrite nth_firstn in E by auto.
    destruct (nth_error_lt_some (act t) i) as [k Hk]; [lia|]. rewrite Hk in E.
    assert (Hj : j < cnt t). { symmetry in E. apply nth_error_some_lt in E. rewrite Len in E. exact E. }
    rewrite nth_firstn in E by auto.
    destruct (At i k Hi Hk) as (s & H1 & H2 & H3), (At j k Hj (eq_sym E)) as (s' & H1' & H2' & H3').
    assert (s = s') by (eapply stored_unique; eauto). subst s'. destruct H3 as [H3 _], H3' as [H3' _]. rewrite H3 in H3'. inversion H3'. lia.
  - intros C. apply In_nth_error in C. destruct C as [i C]. pose proof (nth_error_some_lt _ _ _ C) as Hi. rewrite Len in Hi.
    rewrite nth_firstn in C by auto. destruct (At i sent Hi C) as (s & _ & (_ & X) & _). congruence.
  - congruence.
  - rewrite Len. reflexivity.
  - intros k i (Hi & Hk). pose proof (nth_error_some_lt _ _ _ Hk) as Hl. rewrite Len in Hl. rewrite nth_firstn in Hk by auto.
    destruct (At _ k Hl Hk) as (s & _ & Hs & D). rewrite Z2Nat.id in D by auto. eapply done_query; eauto.
  - intros k Hk Hin. unfold query. rewrite (query_slot_absent keq sent h B t k); auto. intros s Hs. elim Hin. eauto.
Qed.
Lemma dictionary_list : forall t ks, dictionary t ks -> ks = firstn (cnt t) (act t).
Proof. intros t ks (_ & _ & E1 & E2 & _). rewrite E1. auto. Qed.

(** handed out indices *)
Definition pendx (th : thread) : list Z := match cur th with Some (_, WIdx _ n) | Some (_, WAct _ n) => [n] | _ => [] end.
Definition cinv (c0 : nat) (s : state) : Prop := c0 <= cnt (tab s) /\ exists fp,
  Permutation (handed (log s) ++ fp ++ flat_map pendx (threads s)) (map Z.of_nat (seq c0 (cnt (tab s) - c0)))
  /\ (fp <> [] -> exists o, In (o, failure) (log s)).
Lemma pendx_pend : forall th n, In n (pendx th) -> exists s, pend th n s.
Proof. intros th n H. unfold pendx in H. destruct (cur th) as [[o [| | |s m|s m]]|] eqn:E; try destruct H as [H|[]]; try destruct H; subst; exists s, o; auto. Qed.
Lemma handed_app : forall (l : list (op * Z)) o r, handed (l ++ [(o, r)]) = handed l ++ (if (0 <=? r)%Z then [r] else []).
Proof. intros l o r. unfold handed. rewrite map_app, filter_app. cbn. destruct (0 <=? r)%Z; reflexivity. Qed.

(** effect of one step on counter and pending indices, for default insertions *)
Lemma step_effect : forall t th t' th' ret, thread_step t th = Run t' th' ret ->
  Forall (op_ok true []) (ops_of th) ->
  (cnt t' = cnt t /\ pendx th' = pendx th /\ (forall o r, ret = Some (o, r) -> r = (-1)%Z \/ r = failure))
  \/ (cnt t' = S (cnt t) /\ pendx th = [] /\ pendx th' = [Z.of_nat (cnt t)] /\ ret = None)
  \/ (exists n o r, cnt t' = cnt t /\ pendx th = [n] /\ pendx th' = [] /\ ret = Some (o, r) /\ (r = n \/ r = failure)).
Proof.
  intros t [c r] t' th' ret H O. unfold BhtModel.thread_step in H. cbn [cur todo] in H.
  assert (Q : forall o r0 v tt, (v = (-1)%Z \/ v = failure) -> pendx {| cur := c; todo := r |} = [] -> cnt tt = cnt t -> after o r0 (Return tt v) = Run t' th' ret ->
     cnt t' = cnt t /\ pendx th' = pendx {| cur := c; todo := r |} /\ (forall o r, ret = Some (o, r) -> r = (-1)%Z \/ r = failure)).
  { intros o r0 v tt Hv Hp Hc Hx. cbn in Hx. inversion Hx; subst. split; [auto|]. split; [rewrite Hp; reflexivity|]. intros o' r' E. inversion E; subst; auto. }
  assert (G : forall o r0 tt p, pendx {| cur := c; todo := r |} = [] -> pendx {| cur := Some (o, p); todo := r0 |} = [] -> cnt tt = cnt t -> after o r0 (Goto tt p) = Run t' th' ret ->
     cnt t' = cnt t /\ pendx th' = pendx {| cur := c; todo := r |} /\ (forall o r, ret = Some (o, r) -> r = (-1)%Z \/ r = failure)).
  { intros o r0 tt p Hp Hp' Hc Hx. cbn in Hx. inversion Hx; subst. split; [auto|]. split; [rewrite Hp; auto|]. discriminate. }
  destruct c as [[o p]|].
  - assert (Oe : oidx o = (-1)%Z /\ oenq o = true). { unfold ops_of in O. cbn in O. inversion O as [|x y [_ Hx] _]; subst. exact Hx. }
    destruct Oe as [Oi Oe].
    destruct p as [it ld|it ld|s|s n|s n]; cbn [step_op] in H.
    + left. destruct (ld =? B).
      { unfold next_bucket in H. destruct (S it <? 3); [eapply G; [..|exact H]; reflexivity|eapply Q; [right|..|exact H]; reflexivity]. }
      destruct (nth_error _ _); [|discriminate]. destruct (keq _ _); [eapply Q; [left|..|exact H]; reflexivity|].
      destruct (keq _ _); [|eapply G; [..|exact H]; reflexivity].
      destruct (ld <=? threshold B); [eapply G; [..|exact H]; reflexivity|].
      unfold next_bucket in H. destruct (S it <? 3); [eapply G; [..|exact H]; reflexivity|eapply Q; [right|..|exact H]; reflexivity].
    + left. destruct (nth_error _ _); [|discriminate]. destruct (keq _ _); [|eapply G; [..|exact H]; reflexivity].
      destruct (upd _ _ _); [|discriminate]. destruct (Z.eq_dec (oidx o) sentinel) as [_|C]; [eapply G; [..|exact H]; reflexivity|elim C; exact Oi].
    + right. left. cbn in H. inversion H; subst. auto.
    + left. destruct (upd _ _ _); [|discriminate]. rewrite Oe in H. cbn in H. inversion H; subst. split; [auto|]. split; [auto|discriminate].
    + right. right. destruct (n <? 0)%Z; [discriminate|]. destruct (upd _ _ _); [|discriminate]. unfold finish in H.
      destruct (_ <=? _)%Z; cbn in H; inversion H; subst; exists n; do 2 eexists; repeat split; eauto.
  - left. destruct r as [|o r]; [discriminate|]. unfold begin in H. destruct (nb t =? 0); [eapply Q; [right|..|exact H]; reflexivity|eapply G; [..|exact H]; reflexivity].
Qed.
Lemma op_ok_true : forall a b x, op_ok true a x -> op_ok true b x. Proof. auto. Qed.

Lemma cinv_step : (2 <= W)%Z -> forall c0 own t0 s s', sinv true own t0 s -> cinv c0 s -> step s s' -> cinv c0 s'.
Proof.
  intros HW c0 own t0 s s' (G & own' & I & _) (Hc & fp & Hp & Hf) H. destruct H as [s i th t th' ret ths Hn Ht Hu]. unfold cinv. cbn [log tab threads].
  destruct (flat_map_upd pendx _ _ _ _ _ Hn Hu) as (a & b & E1 & ->). rewrite E1 in Hp.
  assert (Ok : Forall (op_ok true []) (ops_of th)).
  { eapply Forall_impl; [|exact (i_ops _ _ _ _ _ _ _ I i th Hn)]. intros x. apply op_ok_true. }
  assert (NF : (failure < 0)%Z). { unfold BhtModel.failure. pose proof (Z.div_str_pos W 2). lia. }
  destruct (step_effect _ _ _ _ _ Ht Ok) as [(A1 & A2 & A3)|[(A1 & A2 & A3 & A4)|(n & o & r & A1 & A2 & A3 & A4 & A5)]].
  - rewrite A1, A2. split; [auto|]. exists fp. destruct ret as [[o r]|]; [|auto]. split.
    + rewrite handed_app. assert ((0 <=? r)%Z = false) as ->; [|rewrite app_nil_r; auto]. destruct (A3 o r eq_refl); subst; lia.
    + intros F. destruct (Hf F) as [o' Ho]. exists o'. apply in_or_app. auto.
  - rewrite A1, A3. subst ret. split; [lia|]. exists fp. split; [|auto]. rewrite A2 in Hp. cbn [app] in Hp.
    replace (S (cnt (tab s)) - c0) with (S (cnt (tab s) - c0)) by lia. rewrite seq_S, map_app. cbn [map].
    replace (c0 + (cnt (tab s) - c0)) with (cnt (tab s)) by lia. rewrite <- Hp.
    rewrite <- Permutation_cons_append. cbn [app].
    transitivity (handed (log s) ++ Z.of_nat (cnt (tab s)) :: fp ++ a ++ b); [|symmetry; apply Permutation_middle].
    apply Permutation_app_head. rewrite !app_assoc. symmetry. apply Permutation_middle.
  - rewrite A1, A3. subst ret. split; [auto|]. rewrite A2 in Hp. cbn [app] in Hp |- *.
    assert (Hn0 : (0 <= n)%Z). { destruct (pendx_pend th n) as [s0 P]; [rewrite A2; left; auto|].
      destruct (own_index _ _ _ _ _ _ n s0 I) as (X & _); [|exact X]. eapply pend_own; [|exact P]. eapply (i_tok _ _ _ _ _ _ _ I); eauto. }
    destruct A5 as [A5|A5]; subst r.
    + exists fp. split.
      * rewrite handed_app. assert ((0 <=? n)%Z = true) as -> by lia. rewrite <- Hp, <- app_assoc. apply Permutation_app_head. cbn.
        rewrite !app_assoc. apply Permutation_middle.
      * intros F. destruct (Hf F) as [o' Ho]. exists o'. apply in_or_app. auto.
    + exists (n :: fp). split.
      * rewrite handed_app. assert ((0 <=? failure)%Z = false) as -> by lia. rewrite app_nil_r, <- Hp. apply Permutation_app_head. cbn.
        rewrite !app_assoc. apply Permutation_middle.
      * intros _. exists o. apply in_or_app. right. left. reflexivity.
Qed.
Lemma cinv_steps : 3 <= B -> (2 <= W)%Z -> forall c0 own t0 n s s', sinv true own t0 s -> cinv c0 s -> steps n s s' -> cinv c0 s'.
Proof.
  intros HB HW c0 own t0 n s s' H C R. induction R as [s|n s s1 s2 R IH St]; [exact C|].
  eapply cinv_step; [exact HW| |exact (IH H C)|exact St]. eapply sinv_steps; eauto.
Qed.
Lemma start_pend : forall (t : table) progs, flat_map pendx (threads (start t progs)) = [].
Proof. intros t progs. cbn. induction progs; simpl; auto. Qed.
Lemma finished_pend : forall s : @state K, finished s -> flat_map pendx (threads s) = [].
Proof.
  intros s H. unfold finished in H. induction (threads s) as [|x l IH]; [reflexivity|]. simpl. rewrite IH; [|intros; apply H; right; auto].
  destruct (H x (or_introl eq_refl)) as [E1 E2]. unfold pendx. rewrite E1. reflexivity.
Qed.
Lemma handed_final : 3 <= B -> (2 <= W)%Z -> forall own t progs n s, sinv true own t (start t progs) -> steps n (start t progs) s -> finished s ->
  cnt t <= cnt (tab s) /\ exists fp, Permutation (handed (log s) ++ fp) (map Z.of_nat (seq (cnt t) (cnt (tab s) - cnt t))) /\ (no_failure W (log s) -> fp = []).
Proof.
  intros HB HW own t progs n s H R F.
  destruct (cinv_steps HB HW (cnt t) own t n _ s H) as (C1 & fp & C2 & C3); [|exact R|].
  - split; [cbn; lia|]. exists []. rewrite start_pend. cbn. rewrite Nat.sub_diag. split; [reflexivity|congruence].
  - split; [exact C1|]. exists fp. rewrite (finished_pend s F), app_nil_r in C2. split; [exact C2|]. intros NF.
    destruct fp as [|x fp]; [auto|destruct C3 as [o Ho]; [discriminate|elim (NF _ _ Ho); reflexivity]].
Qed.

(** fresh tables *)
Lemma repeat_nth : forall (a : K) n i x, nth_error (repeat a n) i = Some x -> x = a.
Proof. intros a n i x H. apply nth_error_In in H. apply repeat_spec in H. auto. Qed.
Lemma blank_inv : 0 < B -> forall mode t q, tsize t = q * B -> keys t = repeat sent (tsize t) -> length (inds t) = tsize t -> length (act t) = tsize t ->
  (mode = true -> cnt t = 0) -> inv mode t [] [].
Proof.
  intros HB mode t q Hq Hk Hi Ha Hc.
  assert (Hnb : nb t = q) by (unfold BhtModel.nb; rewrite Hq; apply Nat.div_mul; lia).
  assert (NS : forall s k, ~ stored t s k). { intros s k [A C]. rewrite Hk in A. apply repeat_nth in A. auto. }
  constructor.
  - constructor; auto.
    + congruence.
    + rewrite Hk, repeat_length. reflexivity.
    + intros b Hb. rewrite Hk. destruct (nth_error_lt_some (repeat sent (tsize t)) (b * B + (B - 1))) as [x Hx].
      * rewrite repeat_length, Hq. rewrite Hnb in Hb. nia.
      * rewrite Hx. f_equal. eapply repeat_nth; eauto.
    + intros s k Hs. elim (NS s k Hs).
  - intros [|i]; discriminate.
  - intros [|i]; discriminate.
  - intros [|i]; discriminate.
  - constructor.
  - intros n s [].
  - intros s k Hs. elim (NS s k Hs).
  - destruct mode; cbn; [rewrite Hc; auto|]. intros n s [].
Qed.
Lemma inv_perm : forall t own own', inv false t [] own -> Permutation own own' -> map fst own' = map Z.of_nat (seq 0 (cnt t)) -> inv true t [] own'.
Proof.
  intros t own own' I P E. constructor; try apply I.
  - intros [|i]; discriminate.
  - intros [|i]; discriminate.
  - apply (Permutation_NoDup (l := map snd own)); [apply Permutation_map; auto|apply I].
  - intros n s Hin. apply (i_own _ _ _ _ _ _ _ I). apply (Permutation_in _ (Permutation_sym P)). auto.
  - intros s k Hs. destruct (i_cover _ _ _ _ _ _ _ I s k Hs) as [C|C]; [left|auto]. apply (Permutation_in (l := map snd own)); [apply Permutation_map; auto|auto].
  - exact E.
Qed.

(** a resize none of whose insertions failed *)
Lemma reinsert_in : forall t : table, cnt t <= length (act t) -> forall o, In o (reinsert t) <->
  exists i, i < cnt t /\ nth_error (act t) i = Some (okey o) /\ o = {| okey := okey o; oidx := Z.of_nat i; oenq := false |}.
Proof.
  intros t Hc o. unfold reinsert.
  assert (G : forall (c a : nat) (l : list K), c <= length l -> forall p, In p (combine (seq a c) l) <-> exists i, i < c /\ nth_error l i = Some (snd p) /\ fst p = a + i).
  { induction c as [|c IH]; intros a l Hl p.
    - simpl. split; [intros []|intros (i & Hi & _); lia].
    - destruct l as [|x l]; [simpl in Hl; lia|]. simpl in Hl. simpl. rewrite (IH (S a) l ltac:(lia) p). split.
      + intros [<-|(i & Hi & E1 & E2)].
        * exists 0. simpl. repeat split; lia.
        * exists (S i). simpl. repeat split; [lia|auto|lia].
      + intros ([|i] & Hi & E1 & E2); simpl in *.
        * left. destruct p as [u v]. simpl in *. f_equal; [lia|congruence].
        * right. exists i. repeat split; [lia|auto|lia]. }
  rewrite in_map_iff. split.
  - intros ([i k] & <- & Hin). apply G in Hin; [|auto]. destruct Hin as (j & Hj & E1 & E2). simpl in *. subst i. exists j. repeat split; auto.
  - intros (i & Hi & E & ->). exists (i, okey o). split; [reflexivity|]. apply G; [auto|]. exists i. simpl. auto.
Qed.
Lemma no_enqueue_keeps : forall n s s', steps n s s' -> Forall (fun th => Forall (fun o => oenq o = false /\ oidx o <> (-1)%Z) (ops_of th)
    /\ match cur th with Some (_, Count _) | Some (_, WAct _ _) => False | _ => True end) (threads s) ->
  (Forall (fun th => Forall (fun o => oenq o = false /\ oidx o <> (-1)%Z) (ops_of th) /\ match cur th with Some (_, Count _) | Some (_, WAct _ _) => False | _ => True end) (threads s'))
  /\ act (tab s') = act (tab s) /\ cnt (tab s') = cnt (tab s).
Proof.
  intros n s s' R F. induction R as [s|n s s1 s2 R IH St]; [auto|]. destruct (IH F) as (F1 & E1 & E2). clear IH F.
  destruct St as [s1 i th t th' ret ths Hn Ht Hu]. cbn.
  assert (Hth : Forall (fun o => oenq o = false /\ oidx o <> (-1)%Z) (ops_of th) /\ match cur th with Some (_, Count _) | Some (_, WAct _ _) => False | _ => True end).
  { rewrite Forall_forall in F1. apply F1. eapply nth_error_In; eauto. }
  assert (E : (Forall (fun o => oenq o = false /\ oidx o <> (-1)%Z) (ops_of th') /\ match cur th' with Some (_, Count _) | Some (_, WAct _ _) => False | _ => True end) /\ act t = act (tab s1) /\ cnt t = cnt (tab s1)).
  { clear - Hth Ht. destruct Hth as [H1 H2]. destruct th as [c r]. unfold BhtModel.thread_step in Ht. cbn [cur todo] in *.
    assert (Hx : forall o r0 x, after o r0 x = Run t th' ret -> Forall (fun o => oenq o = false /\ oidx o <> (-1)%Z) (o :: r0) ->
       match x with Goto t9 p => act t9 = act (tab s1) /\ cnt t9 = cnt (tab s1) /\ match p with Count _ | WAct _ _ => False | _ => True end
                  | Return t9 _ => act t9 = act (tab s1) /\ cnt t9 = cnt (tab s1) | Undef => True end ->
       (Forall (fun o => oenq o = false /\ oidx o <> (-1)%Z) (ops_of th') /\ match cur th' with Some (_, Count _) | Some (_, WAct _ _) => False | _ => True end) /\ act t = act (tab s1) /\ cnt t = cnt (tab s1)).
    { intros o r0 x Hx Ho Hp. destruct x as [t9 p|t9 v|]; cbn in Hx; inversion Hx; subst; cbn.
      - destruct Hp as (A & C & D). repeat split; auto.
      - destruct Hp as (A & C). inversion Ho; repeat split; auto. }
    destruct c as [[o p]|].
    - unfold ops_of in H1. cbn in H1. eapply Hx; [exact Ht|exact H1|]. inversion H1 as [|x y [O1 O2] _]; subst.
      destruct p as [it ld|it ld|s|s n|s n]; try (destruct H2; fail); cbn [step_op].
      + destruct (ld =? B). { unfold next_bucket. destruct (S it <? 3); auto. }
        destruct (nth_error _ _); [|auto]. destruct (keq _ _); [auto|]. destruct (keq _ _); [|auto]. destruct (ld <=? threshold B); [auto|].
        unfold next_bucket. destruct (S it <? 3); auto.
      + destruct (nth_error _ _); [|auto]. destruct (keq _ _); [|auto]. destruct (upd _ _ _); [|auto]. destruct (Z.eq_dec (oidx o) sentinel) as [C|C]; [elim O2; exact C|auto].
      + destruct (upd _ _ _); [|auto]. rewrite O1. unfold finish. destruct (_ <=? _)%Z; auto.
    - destruct r as [|o r]; [discriminate|]. unfold ops_of in H1. cbn in H1. eapply Hx; [exact Ht|exact H1|]. unfold begin. destruct (nb _ =? 0); auto. }
  destruct E as (E3 & E4 & E5). split; [|split; congruence].
  apply Forall_forall. intros x Hx. apply In_nth_error in Hx. destruct Hx as [j Hj]. destruct (Nat.eq_dec j i) as [C|C].
  - subst j. rewrite (upd_nth_eq _ _ _ _ Hu) in Hj. inversion Hj; subst. exact E3.
  - rewrite (upd_nth_neq _ _ _ _ _ Hu) in Hj; auto. rewrite Forall_forall in F1. apply F1. eapply nth_error_In; eauto.
Qed.

Lemma resize_inv : 3 <= B -> (4 <= W)%Z -> forall t own t' c progs n s, inv true t [] own -> regrown sent B t t' c -> Permutation (concat progs) (reinsert t') ->
  steps n (start t' progs) s -> sinv false [] t' s /\ (finished s -> no_failure W (log s) ->
  (exists own', inv true (tab s) [] own') /\ act (tab s) = act t' /\ cnt (tab s) = cnt t /\ firstn (cnt (tab s)) (act (tab s)) = firstn (cnt t) (act t)).
Proof.
  intros HB HW t own t' c progs n s I (R1 & R2 & R3 & R4 & R5 & R6 & R7 & R8) P St.
  pose proof (quiet_cnt t own I) as Hc. pose proof (w_act _ _ _ _ (i_wf _ _ _ _ _ _ _ I)) as La.
  assert (Ipre : firstn (cnt t') (act t') = firstn (cnt t) (act t)). { rewrite R7, <- R6, firstn_firstn. f_equal. lia. }
  destruct (quiet_dictionary ltac:(lia) t own I) as (ND & NS & _).
  destruct (table_size_mult B c ltac:(lia)) as [q Hq].
  assert (I' : inv false t' [] []). { apply (blank_inv ltac:(lia) false t' q); try congruence. }
  assert (Op : forall o, In o (concat progs) -> op_ok false (firstn (cnt t') (act t')) o /\ exists i, i < cnt t' /\ nth_error (act t') i = Some (okey o) /\ oidx o = Z.of_nat i /\ oenq o = false).
  { intros o Ho. apply (Permutation_in _ P) in Ho. apply reinsert_in in Ho; [|lia]. destruct Ho as (i & Hi & Hk & Ho).
    assert (A : oidx o = Z.of_nat i /\ oenq o = false) by (rewrite Ho; auto). destruct A as [A1 A2]. split; [|exists i; auto]. split.
    - intros C. apply NS. rewrite <- Ipre. rewrite C in Hk. apply (nth_error_In _ i). rewrite nth_firstn; auto.
    - split; [auto|]. split; [lia|]. rewrite A1, Nat2Z.id, nth_firstn; auto. }
  assert (S0 : sinv false [] t' (start t' progs)).
  { apply sinv_start; [exact I'|]. apply Forall_forall. intros p Hp. apply Forall_forall. intros o Ho. apply Op. apply in_concat. eauto. }
  assert (S1 : sinv false [] t' s) by (eapply sinv_steps; eauto). split; [exact S1|]. intros F NF.
  destruct S1 as (G & own' & J & _ & Hl).
  assert (J' : inv false (tab s) [] own'). { eapply inv_idle; [exact J|]. intros th Hth. apply (F th Hth). }
  assert (Keep : act (tab s) = act t' /\ cnt (tab s) = cnt t').
  { destruct (no_enqueue_keeps _ _ _ St) as (_ & A & C); [|auto]. cbn. apply Forall_forall. intros th Hth. apply in_map_iff in Hth. destruct Hth as (p & <- & Hp). cbn. split; [|auto].
    unfold ops_of. cbn. apply Forall_forall. intros o Ho. destruct (Op o) as (_ & i & _ & _ & E1 & E2); [apply in_concat; eauto|]. split; [auto|lia]. }
  destruct Keep as [Ka Kc].
  assert (All : forall i, i < cnt t' -> exists s0, In (Z.of_nat i, s0) own').
  { intros i Hi. destruct (nth_error_lt_some (act t') i) as [k Hk]; [lia|].
    assert (Hin : In {| okey := k; oidx := Z.of_nat i; oenq := false |} (map fst (log s))).
    { apply (Permutation_in _ (all_return keq sent h B W n t' progs s St F)). apply (Permutation_in _ (Permutation_sym P)). apply reinsert_in; [lia|]. exists i. auto. }
    apply in_map_iff in Hin. destruct Hin as ([o r] & Eo & Hin). simpl in Eo. subst o.
    rewrite Forall_forall in Hl. specialize (Hl _ Hin). cbn in Hl.
    assert (Hs : exists s0, stored (tab s) s0 k). { destruct Hl as [(_ & s0 & Hs)|[(_ & s0 & _ & Hs)|(E & _)]]; [eauto|eauto|elim (NF _ _ Hin E)]. }
    destruct Hs as [s0 Hs]. destruct (quiet_cover _ _ _ _ _ J' Hs) as (m & Hm & D1 & D2 & D3). exists s0.
    assert (Em : m = Z.of_nat i); [|subst; auto]. destruct (i_mode _ _ _ _ _ _ _ J' m s0 Hm) as (M1 & M2). rewrite Kc in M2. rewrite Ka in D3.
    rewrite NoDup_nth_error in ND. assert (Z.to_nat m = i); [|lia]. apply ND.
    - rewrite firstn_length. lia.
    - rewrite <- Ipre, !nth_firstn by auto. congruence. }
  assert (NDf : NoDup (map fst own')).
  { apply NoDup_nth_error. intros i j Hi E. rewrite map_length in Hi. rewrite !nth_error_map in E.
    destruct (nth_error_lt_some own' i Hi) as [[x sx] Hx]. rewrite Hx in E. simpl in E.
    destruct (nth_error own' j) as [[y sy]|] eqn:Hy; [|discriminate]. simpl in E. inversion E; subst y.
    destruct (quiet_done _ _ _ _ _ J' (nth_error_In _ _ Hx)) as (k1 & K1 & _ & _ & D1).
    destruct (quiet_done _ _ _ _ _ J' (nth_error_In _ _ Hy)) as (k2 & K2 & _ & _ & D2).
    assert (k1 = k2) by congruence. subst k2. assert (sx = sy) by (eapply stored_unique; eauto; apply J'). subst sy.
    pose proof (i_nodup _ _ _ _ _ _ _ J') as N. rewrite NoDup_nth_error in N. apply N; [rewrite map_length; auto|]. rewrite !nth_error_map, Hx, Hy. reflexivity. }
  assert (Pf : Permutation (map Z.of_nat (seq 0 (cnt (tab s)))) (map fst own')).
  { apply NoDup_Permutation; [apply FinFun.Injective_map_NoDup; [intros a b; lia|apply seq_NoDup]|auto|]. intros x. split.
    - intros Hx. apply in_map_iff in Hx. destruct Hx as (i & <- & Hi). apply in_seq in Hi. destruct (All i) as [s0 H0]; [lia|]. apply in_map_iff. exists (Z.of_nat i, s0). auto.
    - intros Hx. apply in_map_iff in Hx. destruct Hx as ([m s0] & <- & Hm). destruct (i_mode _ _ _ _ _ _ _ J' m s0 Hm) as (M1 & M2). apply in_map_iff. exists (Z.to_nat m). simpl. split; [lia|]. apply in_seq. lia. }
  destruct (Permutation_map_inv _ _ Pf) as (own2 & E2 & P2).
  split; [exists own2; eapply inv_perm; eauto|]. split; [auto|]. split; [congruence|]. rewrite Ka, Kc. exact Ipre.
Qed.

(** reachable tables *)
Lemma plain_ops : forall mode_list progs, Forall (Forall (fun k : K => k <> sent)) progs -> Forall (Forall (op_ok true mode_list)) (map (map plain) progs).
Proof.
  intros a progs H. induction H as [|p l H1 H2 IH]; simpl; constructor; auto.
  induction H1 as [|k ks H3 H4 IH2]; simpl; constructor; auto. split; [exact H3|]. auto.
Qed.
Lemma reach_inv : 3 <= B -> (4 <= W)%Z -> forall t, reach keq sent h B W t -> exists own, inv true t [] own.
Proof.
  intros HB HW t R. induction R as [t e Hf|t progs n s R [own I] Hp St F|t t' c progs n s R [own I] Hg P St F NF|t t' R [own I] Hf].
  - destruct Hf as (H1 & H2 & H3 & H4 & H5 & H6). destruct (table_size_mult B e ltac:(lia)) as [q Hq]. exists [].
    apply (blank_inv ltac:(lia) true t q); congruence.
  - assert (S1 : sinv true own t s). { eapply sinv_steps; [exact HB| |exact St]. apply sinv_start; [auto|apply plain_ops; auto]. }
    destruct S1 as (_ & own' & J & _). exists own'. eapply inv_idle; [exact J|]. intros th Hth. apply (F th Hth).
  - destruct (resize_inv HB HW t own t' c progs n s I Hg P St) as [_ Q]. apply Q; auto.
  - destruct Hf as (H1 & H2 & H3 & H4 & H5 & H6). exists [].
    apply (blank_inv ltac:(lia) true t' (nb t)); try congruence. rewrite H1. apply (w_mult _ _ _ _ (i_wf _ _ _ _ _ _ _ I)).
Qed.

(** bound on the number of steps *)
Definition is_stored (t : table) (s : nat) : bool := match nth_error (keys t) s with Some c => if keq c sent then false else true | None => false end.
Definition rem (it ld : nat) : nat := (3 - it) * (B + 1) - ld.
Definition cost : nat := 9 * (B + 1) + 7.
Definition weight (t : table) (th : thread) : nat :=
  match cur th with
  | None => 0
  | Some (o, Load it ld) => 4 + 3 * rem it ld + (if is_stored t (off t (okey o) it + ld) then 0 else 2)
  | Some (o, Cas it ld) => 4 + 3 * rem it ld + 1
  | Some (_, Count _) => 3
  | Some (_, WIdx _ _) => 2
  | Some (_, WAct _ _) => 1
  end + cost * length (todo th).
Lemma stored_is : forall t s k, stored t s k -> is_stored t s = true.
Proof. intros t s k [A C]. unfold is_stored. rewrite A. destruct (keq k sent); [contradiction|auto]. Qed.
Lemma is_stored_mono : forall t t' s, grows t t' -> is_stored t s = true -> is_stored t' s = true.
Proof.
  intros t t' s [_ G] H. unfold is_stored in H. destruct (nth_error (keys t) s) as [c|] eqn:E; [|discriminate]. destruct (keq c sent) as [|C]; [discriminate|].
  eapply stored_is. apply G. split; eauto.
Qed.
Lemma weight_mono : forall t t' th, grows t t' -> weight t' th <= weight t th.
Proof.
  intros t t' [c r] G. unfold weight. cbn [cur todo]. destruct c as [[o [it ld|it ld|s|s n|s n]]|]; try lia.
  rewrite (off_grows h B t t') by apply G. destruct (is_stored t _) eqn:E; [rewrite (is_stored_mono t t' _ G E); lia|]. destruct (is_stored t' _); lia.
Qed.
Lemma weight_step : 3 <= B -> forall t own th t' th' ret, tok t own th -> thread_step t th = Run t' th' ret -> weight t' th' < weight t th.
Proof.
  intros HB t own [c r] t' th' ret T H. unfold BhtModel.thread_step in H. cbn [cur todo] in H.
  assert (Rt : forall o tt v x, after o r (Return tt v) = Run t' th' ret -> 0 < x -> weight t' th' < x + cost * length r).
  { intros o tt v x Hx Hp. cbn in Hx. inversion Hx; subst. unfold weight. cbn. lia. }
  assert (Ld : forall tt o it ld, weight tt {| cur := Some (o, Load it ld); todo := r |} <= 4 + 3 * rem it ld + 2 + cost * length r).
  { intros. unfold weight. cbn [cur todo]. destruct (is_stored _ _); lia. }
  destruct c as [[o p]|].
  - unfold BhtProofs.tok in T. cbn in T. destruct T as [Tn T].
    assert (Nx : forall it ld, it < 3 -> ld <= B -> after o r (next_bucket W t it) = Run t' th' ret -> weight t' th' < 4 + 3 * rem it ld + cost * length r).
    { intros it ld Hi Hl Hx. unfold next_bucket in Hx. destruct (Nat.ltb_spec (S it) 3) as [C|C].
      - cbn in Hx. inversion Hx; subst. eapply Nat.le_lt_trans; [apply Ld|]. unfold rem. assert ((3 - it) * (B + 1) = (3 - S it) * (B + 1) + (B + 1)); [replace (3 - it) with (S (3 - S it)) by lia; rewrite Nat.mul_succ_l; reflexivity|]. set (x := (3 - S it) * (B + 1)) in *. set (y := (3 - it) * (B + 1)) in *. clearbody x y. lia.
      - eapply Rt; [exact Hx|lia]. }
    destruct p as [it ld|it ld|s|s n|s n]; cbn [step_op] in H.
    + destruct T as (Ti & Tl & Tp). assert (Wl : 4 + 3 * rem it ld + cost * length r <= weight t {| cur := Some (o, Load it ld); todo := r |}) by (unfold weight; cbn [cur todo]; lia).
      destruct (Nat.eqb_spec ld B) as [C|C]; [lia|].
      destruct (nth_error (keys t) (off t (okey o) it + ld)) as [c|] eqn:Ek; [|discriminate].
      destruct (keq c (okey o)); [eapply Nat.lt_le_trans; [eapply Rt; [exact H|]|exact Wl]; lia|].
      destruct (keq c sent) as [C1|C1].
      * destruct (ld <=? threshold B).
        -- cbn in H. inversion H; subst. unfold weight. cbn [cur todo]. unfold is_stored. rewrite Ek. destruct (keq sent sent); [lia|congruence].
        -- eapply Nat.lt_le_trans; [eapply Nx; [| |exact H]|exact Wl]; lia.
      * cbn in H. inversion H; subst. eapply Nat.le_lt_trans; [apply Ld|]. unfold weight. cbn [cur todo]. unfold rem.
        assert (Q : S ld <= (3 - it) * (B + 1)) by nia. unfold is_stored. rewrite Ek. destruct (keq c sent); [contradiction|]. set (y := (3 - it) * (B + 1)) in *. clearbody y. lia.
    + destruct T as (Ti & Tl & Tp). destruct (nth_error (keys t) (off t (okey o) it + ld)) as [c|] eqn:Ek; [|discriminate]. destruct (keq c sent) as [C1|C1].
      * destruct (upd _ _ _); [|discriminate]. cbn in H. inversion H; subst. unfold weight. cbn [cur todo]. destruct (Z.eq_dec _ _); lia.
      * cbn in H. inversion H; subst. unfold weight. cbn [cur todo]. unfold is_stored. rewrite Ek. destruct (keq c sent); [contradiction|lia].
    + cbn in H. inversion H; subst. unfold weight. cbn [cur todo]. lia.
    + destruct (upd _ _ _); [|discriminate]. destruct (oenq o).
      * cbn in H. inversion H; subst. unfold weight. cbn [cur todo]. lia.
      * unfold finish in H. unfold weight at 2. cbn [cur todo]. destruct (_ <=? _)%Z; (eapply Rt; [exact H|lia]).
    + destruct (n <? 0)%Z; [discriminate|]. destruct (upd _ _ _); [|discriminate]. unfold finish in H. unfold weight at 2. cbn [cur todo]. destruct (_ <=? _)%Z; (eapply Rt; [exact H|lia]).
  - destruct r as [|o r]; [discriminate|]. unfold weight at 2. cbn [cur todo length]. unfold begin in H. destruct (nb t =? 0).
    + cbn in H. inversion H; subst. unfold weight. cbn. unfold cost. nia.
    + cbn in H. inversion H; subst. unfold weight. cbn [cur todo]. unfold rem, cost. destruct (is_stored _ _); nia.
Qed.
Lemma steps_bound : 3 <= B -> forall mode own t0 n s s', sinv mode own t0 s -> steps n s s' ->
  n + list_sum (map (weight (tab s')) (threads s')) <= list_sum (map (weight (tab s)) (threads s)).
Proof.
  intros HB mode own t0 n s s' H R. induction R as [s|n s s1 s2 R IH St]; [lia|]. specialize (IH H).
  pose proof (sinv_steps keq sent h B W HB mode own t0 n s s1 H R) as (G & own' & J & _).
  destruct St as [s1 i th t th' ret ths Hn Ht Hu]. cbn [tab threads].
  pose proof (inv_thread keq sent h B W HB mode _ _ _ _ _ J Hn) as P. rewrite Ht in P. destruct (P ths Hu) as (G' & _).
  pose proof (weight_step HB _ own' _ _ _ _ (i_tok _ _ _ _ _ _ _ J i th Hn) Ht) as D.
  pose proof (sum_upd (weight t) _ _ _ _ _ Hn Hu) as E.
  assert (L : list_sum (map (weight t) (threads s1)) <= list_sum (map (weight (tab s1)) (threads s1))) by (apply sum_le; intros; apply weight_mono; auto).
  pose proof (weight_mono (tab s1) t th G') as M.
  assert (M2 : list_sum (map (weight t) ths) + weight (tab s1) th <= list_sum (map (weight (tab s1)) (threads s1)) + weight t th').
  2: lia.
  clear - E L M Hn G'. 
  assert (L2 : list_sum (map (weight t) (threads s1)) + weight (tab s1) th <= list_sum (map (weight (tab s1)) (threads s1)) + weight t th); [|lia].
  revert i Hn. clear E L. induction (threads s1) as [|y l IH]; intros i Hn; [destruct i; discriminate|]. destruct i as [|i]; simpl in *.
  - inversion Hn; subst y. assert (list_sum (map (weight t) l) <= list_sum (map (weight (tab s1)) l)) by (apply sum_le; intros; apply weight_mono; auto). lia.
  - specialize (IH i Hn). pose proof (weight_mono (tab s1) t y G'). lia.
Qed.
Lemma start_weight : forall t progs, list_sum (map (weight t) (threads (start t progs))) = cost * length (concat progs).
Proof. intros t progs. cbn. induction progs as [|p l IH]; simpl; [lia|]. rewrite IH, app_length. unfold weight. cbn. lia. Qed.
End P.
