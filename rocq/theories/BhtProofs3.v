(** Bucketed hash table: whole executions. *)
From Verif Require Import Prelude BhtModel BhtSpec BhtProofs BhtProofs2.
Local Open Scope nat_scope.

Lemma flat_map_upd : forall {A C} (f : A -> list C) l l' i x y, nth_error l i = Some y -> upd l i x = Some l' ->
  exists a b, flat_map f l = a ++ f y ++ b /\ flat_map f l' = a ++ f x ++ b.
Proof.
  induction l as [|z l IH]; intros l' i x y Hn Hu; [destruct i; discriminate|].
  destruct i as [|i]; simpl in *.
  - inversion Hn; inversion Hu; subst. exists [], (flat_map f l). auto.
  - destruct (upd l i x) as [l2|] eqn:E; [|discriminate]. inversion Hu; subst.
    destruct (IH l2 i x y Hn E) as (a & b & E1 & E2). exists (f z ++ a), b. simpl. rewrite E1, E2, <- !app_assoc. auto.
Qed.
Lemma sum_upd : forall {A} (f : A -> nat) l l' i x y, nth_error l i = Some y -> upd l i x = Some l' ->
  list_sum (map f l') + f y = list_sum (map f l) + f x.
Proof.
  induction l as [|z l IH]; intros l' i x y Hn Hu; [destruct i; discriminate|].
  destruct i as [|i]; simpl in *.
  - inversion Hn; inversion Hu; subst. simpl. lia.
  - destruct (upd l i x) as [l2|] eqn:E; [|discriminate]. inversion Hu; subst. simpl. specialize (IH l2 i x y Hn E). lia.
Qed.
Lemma sum_le : forall {A} (f g : A -> nat) l, (forall x, In x l -> f x <= g x) -> list_sum (map f l) <= list_sum (map g l).
Proof.
  induction l as [|z l IH]; intros H; simpl; [lia|]. pose proof (H z (or_introl eq_refl)). assert (forall x, In x l -> f x <= g x) as H1 by (intros; apply H; right; auto). specialize (IH H1). lia.
Qed.

Section P.
Context {K : Type}.
Variable keq : forall a b : K, {a = b} + {a <> b}.
Variable sent : K.
Variable h : nat -> K -> nat.
Variable B : nat.
Variable W : Z.
Notation table := (@table K). Notation op := (@op K).
Notation thread := (@thread K).
Notation off := (off h B). Notation nb := (@nb K B).
Notation stored := (stored sent). Notation passed := (passed sent h B). Notation wft := (wft sent h B). Notation grows := (grows sent).
Notation inv := (inv sent h B). Notation tok := (tok sent h B). Notation op_ok := (op_ok sent).
Notation thread_step := (thread_step keq sent h B W).
Notation step := (step keq sent h B W). Notation steps := (steps keq sent h B W).
Notation failure := (failure W).
Notation ret_ok := (ret_ok sent h B W).

Lemma ret_mono : forall (t t' : table) own own' x, grows t t' -> (succ t = false -> succ t' = false) -> (forall p, In p own -> In p own') ->
  ret_ok t own x -> ret_ok t' own' x.
Proof.
  intros t t' own own' [o r] G Hf Hi [(E & s & Hs)|[(E & s & Hs & Hk)|(E & H)]].
  - left. split; auto. exists s. apply G; auto.
  - right. left. split; auto. exists s. split; auto. apply G; auto.
  - right. right. split; auto. rewrite (nb_grows B t t') by apply G. destruct H as [H|(H1 & H2)]; auto. right. split; auto.
    destruct H2 as [H2|(s & n & A & C & D)]; [left; eapply passed_grows; eauto|].
    right. exists s, n. split; auto. split; [apply G; auto|]. destruct G as [-> _]. exact D.
Qed.
Lemma succ_mono : forall t th t' th' ret, thread_step t th = Run t' th' ret -> succ t = false -> succ t' = false.
Proof.
  intros t [c r] t' th' ret H F. unfold BhtModel.thread_step in H. cbn [cur todo] in H.
  assert (A : forall o r0 x, after o r0 x = Run t' th' ret -> match x with Goto t1 _ | Return t1 _ => t1 = t' | Undef => False end).
  { intros o r0 x Hx. destruct x; cbn in Hx; inversion Hx; auto. }
  destruct c as [[o p]|].
  - apply A in H. destruct p as [it ld|it ld|s|s n|s n]; cbn [step_op] in H.
    + destruct (ld =? B).
      { unfold next_bucket in H. destruct (S it <? 3); subst; auto. }
      destruct (nth_error _ _); [|destruct H]. destruct (keq _ _); [subst; auto|]. destruct (keq _ _); [|subst; auto].
      destruct (ld <=? threshold B); [subst; auto|]. unfold next_bucket in H. destruct (S it <? 3); subst; auto.
    + destruct (nth_error _ _); [|destruct H]. destruct (keq _ _); [|subst; auto]. destruct (upd _ _ _); [|destruct H]. subst; auto.
    + subst; auto.
    + destruct (upd _ _ _); [|destruct H]. destruct (oenq o); [subst; auto|]. unfold finish in H. destruct (_ <=? _)%Z; subst; auto.
    + destruct (n <? 0)%Z; [destruct H|]. destruct (upd _ _ _); [|destruct H]. unfold finish in H. destruct (_ <=? _)%Z; subst; auto.
  - destruct r as [|o r]; [discriminate|]. apply A in H. unfold begin in H. destruct (nb t =? 0); subst; auto.
Qed.

(** the state invariant of a run *)
Definition sinv (mode : bool) (own0 : list (Z * nat)) (t0 : table) (s : state) : Prop :=
  grows t0 (tab s) /\ exists own, inv mode (tab s) (threads s) own /\ (forall x, In x own0 -> In x own) /\ Forall (ret_ok (tab s) own) (log s).

Lemma sinv_step : 3 <= B -> forall mode own0 t0 s s', sinv mode own0 t0 s -> step s s' -> sinv mode own0 t0 s'.
Proof.
  intros HB mode own0 t0 s s' (G & own & I & Hi & Hl) H. destruct H as [s i th t th' ret ths Hn Ht Hu].
  pose proof (inv_thread keq sent h B W HB mode _ _ _ _ _ I Hn) as P. rewrite Ht in P. destruct (P ths Hu) as (G' & own' & I' & Hi' & Hr).
  pose proof (succ_mono _ _ _ _ _ Ht) as Hs.
  split; [destruct G as [G1 G2], G' as [G3 G4]; split; [cbn; congruence|cbn; auto]|].
  exists own'. cbn. split; [auto|]. split; [auto|].
  assert (F : Forall (ret_ok t own') (log s)) by (eapply Forall_impl; [|exact Hl]; intros x; apply ret_mono; auto).
  destruct ret as [x|]; auto. apply Forall_app. split; auto.
Qed.
Lemma sinv_steps : 3 <= B -> forall mode own0 t0 n s s', sinv mode own0 t0 s -> steps n s s' -> sinv mode own0 t0 s'.
Proof. intros HB mode own0 t0 n s s' H R. induction R as [s|n s s1 s2 R IH St]; [exact H|]. exact (sinv_step HB mode own0 t0 s1 s2 (IH H) St). Qed.

Lemma idle_slot : forall th : thread, cur th = None -> slot_of th = None.
Proof. intros th H. unfold slot_of. rewrite H. reflexivity. Qed.
Lemma sinv_start : forall mode own t progs, inv mode t [] own -> Forall (Forall (op_ok mode (firstn (cnt t) (act t)))) progs -> sinv mode own t (start t progs).
Proof.
  intros mode own t progs I Hp. split; [apply grows_refl|]. exists own. cbn. split; [|split; auto].
  assert (N : forall i (th : thread), nth_error (map (fun p => {| cur := None; todo := p |}) progs) i = Some th -> cur th = None /\ In (todo th) progs).
  { intros i th Hn. apply nth_error_In in Hn. apply in_map_iff in Hn. destruct Hn as (p & <- & Hin). auto. }
  constructor; try apply I.
  - intros i th Hn. unfold BhtProofs.tok. destruct (N i th Hn) as [-> _]. exact Logic.I.
  - intros i th Hn. unfold ops_of. destruct (N i th Hn) as [-> Hin]. cbn. rewrite Forall_forall in Hp. auto.
  - intros i j th th' s Hn _ Hs. rewrite idle_slot in Hs; [discriminate|]. apply (N i th Hn).
  - intros n s Hin. destruct (i_own _ _ _ _ _ _ _ I n s Hin) as (k & Hk & [D|(j & x & Hx & _)]); [|destruct j; discriminate].
    exists k. auto.
  - intros s k Hs. destruct (i_cover _ _ _ _ _ _ _ I s k Hs) as [D|(j & x & o & Hx & _)]; [auto|destruct j; discriminate].
Qed.
Lemma inv_idle : forall mode t ths own, inv mode t ths own -> (forall th, In th ths -> cur th = None) -> inv mode t [] own.
Proof.
  intros mode t ths own I Hc. constructor; try apply I; try (intros i; intros; destruct i; discriminate).
  - intros n s Hin. destruct (i_own _ _ _ _ _ _ _ I n s Hin) as (k & Hk & [D|(j & x & Hx & [o P])]); [exists k; auto|].
    apply nth_error_In in Hx. rewrite (Hc x Hx) in P. destruct P; discriminate.
  - intros s k Hs. destruct (i_cover _ _ _ _ _ _ _ I s k Hs) as [D|(j & x & o & Hx & P)]; [auto|].
    apply nth_error_In in Hx. rewrite (Hc x Hx) in P. discriminate.
Qed.

(** progress: no undefined behaviour, and an unfinished thread can always step *)
Lemma sinv_progress : 3 <= B -> forall mode own0 t0 s, sinv mode own0 t0 s -> ~ crashes keq sent h B W s.
Proof.
  intros HB mode own0 t0 s (G & own & I & _) (th & Hin & Hc). apply In_nth_error in Hin. destruct Hin as [i Hi].
  pose proof (inv_thread keq sent h B W HB mode _ _ _ _ _ I Hi) as P. rewrite Hc in P. exact P.
Qed.
Lemma sinv_enabled : 3 <= B -> forall mode own0 t0 s i th, sinv mode own0 t0 s -> nth_error (threads s) i = Some th ->
  (cur th <> None \/ todo th <> []) -> exists t th' ret, thread_step (tab s) th = Run t th' ret.
Proof.
  intros HB mode own0 t0 s i th (G & own & I & _) Hi Hn.
  pose proof (inv_thread keq sent h B W HB mode _ _ _ _ _ I Hi) as P.
  destruct (thread_step (tab s) th) as [t th' ret| |] eqn:E; [eauto|destruct P|destruct P as [P1 P2]; destruct Hn; congruence].
Qed.

(** all calls return exactly once *)
Lemma ops_step : forall s s', step s s' ->
  Permutation (map fst (log s) ++ flat_map ops_of (threads s)) (map fst (log s') ++ flat_map ops_of (threads s')).
Proof.
  intros s s' H. destruct H as [s i th t th' ret ths Hn Ht Hu]. cbn.
  destruct (flat_map_upd ops_of _ _ _ _ _ Hn Hu) as (a & b & -> & ->).
  assert (E : ops_of th = match ret with Some x => [fst x] | None => [] end ++ ops_of th').
  { destruct th as [c r]. unfold BhtModel.thread_step in Ht. cbn [cur todo] in Ht. destruct c as [[o p]|].
    - unfold after in Ht. destruct (step_op _ _ _ _ _ _ _ _); inversion Ht; subst; reflexivity.
    - destruct r as [|o r]; [discriminate|]. unfold after in Ht. destruct (begin _ _ _); inversion Ht; subst; reflexivity. }
  rewrite E. destruct ret as [x|]; [|reflexivity]. rewrite map_app, <- !app_assoc. apply Permutation_app_head. simpl.
  rewrite <- Permutation_middle. reflexivity.
Qed.
Lemma ops_steps : forall n s s', steps n s s' ->
  Permutation (map fst (log s) ++ flat_map ops_of (threads s)) (map fst (log s') ++ flat_map ops_of (threads s')).
Proof. intros n s s' H. induction H; [reflexivity|]. etransitivity; [exact IHsteps|]. apply ops_step; auto. Qed.
Lemma start_ops : forall (t : table) progs, flat_map ops_of (threads (start t progs)) = concat progs.
Proof. intros t progs. cbn. induction progs; simpl; [auto|]. rewrite IHprogs. reflexivity. Qed.
Lemma finished_ops : forall s : @state K, finished s -> flat_map ops_of (threads s) = [].
Proof.
  intros s H. unfold finished in H. induction (threads s) as [|x l IH]; [reflexivity|]. simpl. rewrite IH; [|intros; apply H; right; auto].
  destruct (H x (or_introl eq_refl)) as [E1 E2]. unfold ops_of. rewrite E1, E2. reflexivity.
Qed.
Lemma all_return : forall n t progs s, steps n (start t progs) s -> finished s -> Permutation (concat progs) (map fst (log s)).
Proof.
  intros n t progs s H F. apply ops_steps in H. rewrite start_ops, (finished_ops s F), app_nil_r in H. exact H.
Qed.
End P.
