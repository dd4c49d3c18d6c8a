(** Bucketed hash table: the statements of a completed insertion phase. *)
From Verif Require Import Prelude BhtModel BhtSpec BhtProofs BhtProofs2 BhtProofs3 BhtProofs4.
Local Open Scope nat_scope.

Section P.
Context {K : Type}.
Variable keq : forall a b : K, {a = b} + {a <> b}.
Variable sent : K.
Variable h : nat -> K -> nat.
Variable B : nat.
Variable W : Z.
Notation table := (@table K). Notation op := (@op K).
Notation thread := (@thread K).
Notation off := (off h B). Notation nb := (@nb K B).
Notation stored := (stored sent). Notation wft := (wft sent h B). Notation grows := (grows sent).
Notation inv := (inv sent h B).
Notation thread_step := (thread_step keq sent h B W).
Notation step := (step keq sent h B W). Notation steps := (steps keq sent h B W).
Notation failure := (failure W).
Notation dictionary := (dictionary keq sent h B).
Notation sinv := (sinv sent h B W).
Notation reach := (reach keq sent h B W).

(** keys come from calls *)
Lemma origin_step : forall t th t' th' ret s k, thread_step t th = Run t' th' ret -> stored t' s k -> stored t s k \/ exists o, In o (ops_of th) /\ okey o = k.
Proof.
  intros t [c r] t' th' ret s k H. unfold BhtModel.thread_step in H. cbn [cur todo] in H.
  assert (A : forall o r0 x, after o r0 x = Run t' th' ret -> match x with Goto t1 _ | Return t1 _ => keys t1 = keys t | Undef => True end -> stored t' s k -> stored t s k).
  { intros o r0 x Hx Hk [S1 S2]. split; [|exact S2]. destruct x; cbn in Hx; inversion Hx; subst; congruence. }
  destruct c as [[o p]|].
  - destruct p as [it ld|it ld|s0|s0 n|s0 n]; cbn [step_op] in H; intros Hs.
    + left. eapply A; [exact H| |exact Hs]. destruct (ld =? B). { unfold next_bucket. destruct (S it <? 3); auto. }
      destruct (nth_error _ _); [|auto]. destruct (keq _ _); [auto|]. destruct (keq _ _); [|auto]. destruct (ld <=? threshold B); [auto|].
      unfold next_bucket. destruct (S it <? 3); auto.
    + destruct (nth_error _ _); [|discriminate]. destruct (keq _ _); [|left; eapply A; [exact H|reflexivity|exact Hs]].
      destruct (upd (keys t) (off t (okey o) it + ld) (okey o)) as [ks|] eqn:E; [|discriminate]. cbn in H. inversion H; subst. destruct Hs as [S1 S2]. cbn in S1.
      destruct (Nat.eq_dec s (off t (okey o) it + ld)) as [C|C].
      * subst s. rewrite (upd_nth_eq _ _ _ _ E) in S1. inversion S1; subst. right. exists o. split; [left; reflexivity|reflexivity].
      * left. rewrite (upd_nth_neq _ _ _ _ _ E) in S1; auto. split; auto.
    + left. eapply A; [exact H|reflexivity|exact Hs].
    + left. eapply A; [exact H| |exact Hs]. destruct (upd _ _ _); [|auto]. destruct (oenq o); [auto|]. unfold finish. destruct (_ <=? _)%Z; auto.
    + left. eapply A; [exact H| |exact Hs]. destruct (n <? 0)%Z; [auto|]. destruct (upd _ _ _); [|auto]. unfold finish. destruct (_ <=? _)%Z; auto.
  - intros Hs. left. destruct r as [|o r]; [discriminate|]. eapply A; [exact H| |exact Hs]. unfold begin. destruct (nb t =? 0); auto.
Qed.
Lemma origin : forall n t progs s0 sl k, steps n (start t progs) s0 -> stored (tab s0) sl k -> stored t sl k \/ exists o, In o (concat progs) /\ okey o = k.
Proof.
  intros n t progs s0 sl k R. remember (start t progs) as st. induction R as [s|n s s1 s2 R IH St]; intros Hs; subst.
  - left. exact Hs.
  - specialize (IH eq_refl). pose proof (ops_steps keq sent h B W n _ _ R) as P. rewrite start_ops in P. cbn [log start map app] in P.
    destruct St as [s1 i th t1 th' ret ths Hn Ht Hu]. cbn [tab] in Hs.
    destruct (origin_step _ _ _ _ _ _ _ Ht Hs) as [C|(o & Ho & E)]; [auto|]. right. exists o. split; [|auto].
    apply (Permutation_in _ (Permutation_sym P)). apply in_or_app. right. apply in_flat_map. exists th. split; [eapply nth_error_In; eauto|auto].
Qed.

(** the structure of executions *)
Lemma run_safe : 3 <= B -> (4 <= W)%Z -> forall t progs n s, reach t -> Forall (Forall (fun k => k <> sent)) progs -> steps n (start t (map (map plain) progs)) s ->
  ~ crashes keq sent h B W s /\ n <= (9 * (B + 1) + 7) * length (concat progs)
  /\ (forall th, In th (threads s) -> cur th <> None \/ todo th <> [] -> exists t' th' ret, thread_step (tab s) th = Run t' th' ret).
Proof.
  intros HB HW t progs n s R Hp St. destruct (reach_inv keq sent h B W HB HW t R) as [own I].
  assert (S0 : sinv true own t (start t (map (map plain) progs))) by (apply sinv_start; [auto|apply plain_ops; auto]).
  assert (S1 : sinv true own t s) by (eapply sinv_steps; eauto).
  split; [eapply sinv_progress; eauto|]. split.
  - pose proof (steps_bound keq sent h B W HB true own t n _ s S0 St) as L. rewrite start_weight in L. unfold cost in L.
    rewrite <- concat_map, map_length in L. lia.
  - intros th Hin Hn. apply In_nth_error in Hin. destruct Hin as [i Hi]. eapply sinv_enabled; eauto.
Qed.

Lemma run_final : 3 <= B -> (64 <= W)%Z -> forall t ks progs n s, reach t -> (Z.of_nat (tsize t) <= W)%Z -> dictionary t ks -> Forall (Forall (fun k => k <> sent)) progs ->
  steps n (start t (map (map plain) progs)) s -> finished s ->
  Permutation (map plain (concat progs)) (map fst (log s)) /\ tsize (tab s) = tsize t /\ exists new, dictionary (tab s) (ks ++ new)
  /\ (forall k, In k new -> In k (concat progs))
  /\ NoDup (handed (log s))
  /\ (forall o r, In (o, r) (log s) ->
        (r = (-1)%Z /\ In (okey o) (ks ++ new))
        \/ ((Z.of_nat (length ks) <= r)%Z /\ numbered (ks ++ new) (okey o) r)
        \/ (r = failure /\ (tsize t = 0 \/ (succ (tab s) = false /\ (buckets_full sent h B (tab s) (okey o)
              \/ 20 <= tsize t /\ exists i, numbered (ks ++ new) (okey o) i /\ (Z.of_nat (tsize t) - 20 <= i)%Z)))))
  /\ (no_failure W (log s) -> (forall k, In k (concat progs) -> In k (ks ++ new)) /\ Permutation (handed (log s)) (map Z.of_nat (seq (length ks) (length new)))).
Proof.
  intros HB HW t ks progs n s R HT D Hp St F. destruct (reach_inv keq sent h B W HB ltac:(lia) t R) as [own I].
  assert (S0 : sinv true own t (start t (map (map plain) progs))) by (apply sinv_start; [auto|apply plain_ops; auto]).
  assert (S1 : sinv true own t s) by (eapply sinv_steps; eauto).
  destruct (handed_final keq sent h B W HB ltac:(lia) own t _ n s S0 St F) as (Hcle & fp & Hperm & Hfp).
  pose proof (all_return keq sent h B W n t _ s St F) as Hall. rewrite <- concat_map in Hall.
  destruct S1 as (G & own' & J & Hown & Hl).
  assert (J' : inv true (tab s) [] own'). { eapply inv_idle; [exact J|]. intros th Hth. apply (F th Hth). }
  pose proof (quiet_dictionary keq sent h B ltac:(lia) _ _ J') as D'.
  pose proof (dictionary_list keq sent h B t ks D) as Eks.
  assert (Lks : length ks = cnt t) by (destruct D as (_ & _ & E & _); auto).
  pose proof (quiet_cnt _ _ _ _ _ J') as Hc'. pose proof (quiet_cnt _ _ _ _ _ I) as Hc.
  assert (Pre : firstn (cnt t) (act (tab s)) = ks).
  { rewrite Eks. apply nth_error_ext. intros i. destruct (Nat.lt_ge_cases i (cnt t)) as [C|C].
    - rewrite !nth_firstn by auto. destruct (quiet_slot _ _ _ _ _ i I C) as [sl Hsl].
      destruct (quiet_done _ _ _ _ _ _ _ _ I Hsl) as (k & Hk & _ & _ & D1). destruct (quiet_done _ _ _ _ _ _ _ _ J' (Hown _ Hsl)) as (k' & Hk' & _ & _ & D2).
      assert (k' = k) by (eapply stored_fun; [exact Hk'|apply G; exact Hk]). subst k'. rewrite Nat2Z.id in *. congruence.
    - rewrite (proj2 (nth_error_None _ i)), (proj2 (nth_error_None _ i)); auto; rewrite firstn_length; lia. }
  assert (Lists : firstn (cnt (tab s)) (act (tab s)) = ks ++ skipn (cnt t) (firstn (cnt (tab s)) (act (tab s)))).
  { rewrite <- Pre at 1. rewrite <- (firstn_skipn (cnt t) (firstn (cnt (tab s)) (act (tab s)))) at 1. f_equal. rewrite firstn_firstn. f_equal. lia. }
  set (new := skipn (cnt t) (firstn (cnt (tab s)) (act (tab s)))) in *.
  assert (Lnew : length new = cnt (tab s) - cnt t) by (unfold new; rewrite skipn_length, firstn_length; lia).
  rewrite Lists in D'. pose proof D' as (ND & NS & _ & _ & Q1 & Q2).
  assert (StIn : forall sl k, stored (tab s) sl k -> In k (ks ++ new)).
  { intros sl k Hs. rewrite <- Lists. destruct (quiet_cover _ _ _ _ _ _ _ _ J' Hs) as (m & Hin & _ & D2 & D3).
    destruct (own_index _ _ _ _ _ _ _ _ J' Hin) as (_ & Hn & _). apply (nth_error_In _ (Z.to_nat m)). rewrite nth_firstn; auto. }
  assert (InSt : forall k, In k (ks ++ new) -> exists i sl, nth_error (ks ++ new) i = Some k /\ In (Z.of_nat i, sl) own' /\ stored (tab s) sl k).
  { intros k Hk. apply In_nth_error in Hk. destruct Hk as [i Hi]. pose proof Hi as Hi2. rewrite <- Lists in Hi.
    pose proof (nth_error_some_lt _ _ _ Hi) as Li. rewrite firstn_length in Li. rewrite nth_firstn in Hi by lia.
    destruct (quiet_slot _ _ _ _ _ i J') as [sl Hsl]; [lia|]. destruct (quiet_done _ _ _ _ _ _ _ _ J' Hsl) as (k' & Hk' & _ & _ & D1).
    rewrite Nat2Z.id in D1. assert (k' = k) by congruence. subst k'. exists i, sl. auto. }
  assert (OwnNum : forall r sl k, In (r, sl) own' -> stored (tab s) sl k -> numbered (ks ++ new) k r /\ Z.to_nat r < cnt (tab s)).
  { intros r sl k Hin Hs. destruct (quiet_done _ _ _ _ _ _ _ _ J' Hin) as (k' & Hk' & _ & D2 & D3).
    assert (k' = k) by (eapply stored_fun; eauto). subst k'. destruct (own_index _ _ _ _ _ _ _ _ J' Hin) as (_ & Hn & _).
    split; [|exact Hn]. split; [exact D2|]. rewrite <- Lists, nth_firstn; auto. }
  split; [exact Hall|]. split; [apply G|]. exists new. split; [exact D'|]. split; [|split; [|split]].
  - intros k Hk. destruct (InSt k) as (i & sl & Hi & Hin & Hs); [apply in_or_app; auto|].
    destruct (origin n t _ s sl k St Hs) as [C|(o & Ho & E)].
    + exfalso. destruct (quiet_cover _ _ _ _ _ _ _ _ I C) as (m & Hm & _ & D2 & D3).
      destruct (own_index _ _ _ _ _ _ _ _ I Hm) as (_ & Hmn & _).
      assert (In k ks). { rewrite Eks. apply (nth_error_In _ (Z.to_nat m)). rewrite nth_firstn; auto. }
      clear - ND Hk H. apply in_split in H. destruct H as (a & b & E). subst ks. rewrite <- app_assoc in ND. apply NoDup_remove_2 in ND. apply ND.
      apply in_or_app. right. apply in_or_app. right. exact Hk.
    + rewrite <- concat_map in Ho. apply in_map_iff in Ho. destruct Ho as (k0 & E0 & Ho). subst o. cbn in E. subst. exact Ho.
  - assert (NoDup (handed (log s) ++ fp)) as N.
    { eapply Permutation_NoDup; [symmetry; exact Hperm|]. apply FinFun.Injective_map_NoDup; [intros a b; lia|apply seq_NoDup]. }
    clear - N. induction (handed (log s)); [constructor|]. inversion N; subst. constructor; [intros C; apply H1; apply in_or_app; auto|auto].
  - intros o r Hin. rewrite Forall_forall in Hl. specialize (Hl _ Hin). cbn in Hl.
    destruct Hl as [(E & sl & Hs)|[(E & sl & Ho & Hs)|(E & C)]].
    + left. split; [auto|]. eapply StIn; eauto.
    + right. left. destruct (OwnNum r sl _ Ho Hs) as [N _]. split; [|exact N].
      assert (Hh : In r (handed (log s) ++ fp)). { apply in_or_app. left. unfold handed. apply filter_In. split; [apply in_map_iff; exists (o, r); auto|lia]. }
      apply (Permutation_in _ Hperm) in Hh. apply in_map_iff in Hh. destruct Hh as (j & <- & Hj). apply in_seq in Hj. lia.
    + right. right. split; [auto|]. destruct C as [C|(C1 & C2)].
      * left. pose proof (w_mult _ _ _ _ (i_wf _ _ _ _ _ _ _ J')) as M. rewrite C in M. destruct G as [<- _]. lia.
      * right. split; [auto|]. destruct C2 as [C2|(sl & m & Ho & Hs & Hm)].
        -- left. intros it ld Hit Hld. destruct (C2 it ld) as (k' & [S1 S2] & S3); [left; auto|]. exists k'. auto.
        -- right. destruct (OwnNum m sl _ Ho Hs) as [[N1 N2] N3]. destruct G as [Gt _]. rewrite Gt in Hm.
           pose proof (own_count _ _ _ _ _ _ _ J') as Oc. destruct (own_index _ _ _ _ _ _ _ _ J' Ho) as (_ & _ & Oe). rewrite Gt in Oc.
           assert (Hms : (m mod W = m)%Z) by (apply Z.mod_small; lia). rewrite Hms in Hm.
           destruct (Nat.lt_ge_cases (tsize t) 20) as [L|L].
           ++ exfalso. assert (Hw : ((Z.of_nat (tsize t) - 20) mod W = W + Z.of_nat (tsize t) - 20)%Z).
              { symmetry. apply (Z.mod_unique_pos _ _ (-1)); lia. } lia.
           ++ split; [auto|]. exists m. split; [split; auto|]. rewrite Z.mod_small in Hm; lia.
  - intros NF. rewrite (Hfp NF), app_nil_r in Hperm. rewrite Lnew, Lks. split; [|exact Hperm].
    intros k Hk. assert (Hin : In (plain k) (map fst (log s))). { apply (Permutation_in _ Hall). apply in_map. exact Hk. }
    apply in_map_iff in Hin. destruct Hin as ([o r] & E & Hin). simpl in E. subst o. rewrite Forall_forall in Hl. specialize (Hl _ Hin). cbn in Hl.
    destruct Hl as [(_ & sl & Hs)|[(_ & sl & _ & Hs)|(E & _)]]; [eapply StIn; eauto|eapply StIn; eauto|elim (NF _ _ Hin E)].
Qed.

Lemma run_resize : 3 <= B -> (4 <= W)%Z -> forall t ks t' c progs n s, reach t -> dictionary t ks -> regrown sent B t t' c -> Permutation (concat progs) (reinsert t') ->
  steps n (start t' progs) s -> ~ crashes keq sent h B W s /\ n <= (9 * (B + 1) + 7) * length ks /\
  (finished s -> no_failure W (log s) -> dictionary (tab s) ks /\ tsize (tab s) = table_size B c).
Proof.
  intros HB HW t ks t' c progs n s R D Hg P St. destruct (reach_inv keq sent h B W HB HW t R) as [own I].
  destruct (resize_inv keq sent h B W HB HW t own t' c progs n s I Hg P St) as [S1 Q].
  pose proof (dictionary_list keq sent h B t ks D) as Eks. assert (Lks : length ks = cnt t) by (destruct D as (_ & _ & E & _); auto).
  split; [eapply sinv_progress; eauto|]. split.
  - assert (S0 : sinv false [] t' (start t' progs)) by (eapply (resize_inv keq sent h B W HB HW t own t' c progs 0); eauto; constructor).
    pose proof (steps_bound keq sent h B W HB false [] t' n _ s S0 St) as L. rewrite start_weight in L. unfold cost in L.
    rewrite (Permutation_length P) in L. unfold reinsert in L. rewrite map_length, combine_length, seq_length in L.
    destruct Hg as (_ & _ & _ & _ & _ & _ & Ec & _). rewrite Ec, <- Lks in L. nia.
  - intros F NF. destruct (Q F NF) as ((own' & J) & E1 & E2 & E3). split.
    + rewrite Eks, <- E3. eapply quiet_dictionary; eauto. lia.
    + destruct S1 as ([G _] & _). destruct Hg as (_ & E & _). congruence.
Qed.

(** executing a given schedule *)
Fixpoint exec (sched : list nat) (s : state) : option state :=
  match sched with
  | [] => Some s
  | i :: r => match nth_error (threads s) i with
              | None => None
              | Some th => match thread_step (tab s) th with
                           | Run t th' ret => match upd (threads s) i th' with
                               | None => None
                               | Some ths => exec r {| tab := t; threads := ths; log := match ret with Some x => log s ++ [x] | None => log s end |}
                               end
                           | _ => None
                           end
              end
  end.
Lemma steps_front : forall n s s1 s2, step s s1 -> steps n s1 s2 -> steps (S n) s s2.
Proof. intros n s s1 s2 H R. induction R as [s1|n s1 s2 s3 R IH St]; [econstructor; [constructor|exact H]|]. econstructor; [apply IH; exact H|exact St]. Qed.
Lemma exec_steps : forall sched s s', exec sched s = Some s' -> steps (length sched) s s'.
Proof.
  induction sched as [|i r IH]; intros s s' H; cbn [exec] in H; [inversion H; subst; constructor|].
  destruct (nth_error (threads s) i) as [th|] eqn:E1; [|discriminate]. destruct (thread_step (tab s) th) as [t th' ret| |] eqn:E2; try discriminate.
  destruct (upd (threads s) i th') as [ths|] eqn:E3; [|discriminate]. cbn [length]. eapply steps_front; [|apply IH; exact H]. eapply Step; eauto.
Qed.
End P.
