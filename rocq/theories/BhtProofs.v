(** Bucketed hash table: structural invariant of concurrent insertion. *)
From Verif Require Import Prelude BhtModel BhtSpec.
Local Open Scope nat_scope.

Lemma off_in_range : forall hv n B ld, n <> 0 -> ld < B -> hv mod n * B + ld < n * B.
Proof. intros hv n B ld Hn Hl. pose proof (Nat.mod_upper_bound hv n Hn) as Hm. nia. Qed.

Section P.
Context {K : Type}.
Variable keq : forall a b : K, {a = b} + {a <> b}.
Variable sent : K.
Variable h : nat -> K -> nat.
Variable B : nat.
Variable W : Z.
Notation table := (@table K). Notation op := (@op K).
Notation thread := (@thread K).
Notation off := (off h B). Notation nb := (@nb K B).

Definition stored (t : table) (s : nat) (k : K) : Prop := nth_error (keys t) s = Some k /\ k <> sent.
Definition before (it' ld' it ld : nat) : Prop := (it' < it /\ ld' < B - 1) \/ (it' = it /\ ld' < ld).
Definition passed (t : table) (k : K) (it ld : nat) : Prop :=
  forall it' ld', before it' ld' it ld -> exists k', stored t (off t k it' + ld') k' /\ k' <> k.
Record wft (t : table) : Prop := {
  w_mult : tsize t = nb t * B;
  w_keys : length (keys t) = tsize t; w_inds : length (inds t) = tsize t; w_act : length (act t) = tsize t;
  w_last : forall b, b < nb t -> nth_error (keys t) (b * B + (B - 1)) = Some sent;
  w_pos : forall s k, stored t s k -> exists it ld, it < 3 /\ ld < B - 1 /\ s = off t k it + ld /\ passed t k it ld }.

Lemma stored_fun : forall t s k k', stored t s k -> stored t s k' -> k = k'.
Proof. intros t s k k' [A _] [C _]. congruence. Qed.
Lemma stored_unique : forall t s s' k, wft t -> stored t s k -> stored t s' k -> s = s'.
Proof.
  intros t s s' k Hw H1 H2.
  destruct (w_pos t Hw s k H1) as (it & ld & Hi & Hl & Es & Hp).
  destruct (w_pos t Hw s' k H2) as (it' & ld' & Hi' & Hl' & Es' & Hp').
  destruct (lt_eq_lt_dec it it') as [[C|C]|C].
  - destruct (Hp' it ld) as (k' & Hs & Hn); [left; auto|]. rewrite <- Es in Hs. elim Hn. eapply stored_fun; eauto.
  - subst it'. destruct (lt_eq_lt_dec ld ld') as [[D|D]|D].
    + destruct (Hp' it ld) as (k' & Hs & Hn); [right; auto|]. rewrite <- Es in Hs. elim Hn. eapply stored_fun; eauto.
    + subst ld'. congruence.
    + destruct (Hp it ld') as (k' & Hs & Hn); [right; auto|]. rewrite <- Es' in Hs. elim Hn. eapply stored_fun; eauto.
  - destruct (Hp it' ld') as (k' & Hs & Hn); [left; auto|]. rewrite <- Es' in Hs. elim Hn. eapply stored_fun; eauto.
Qed.
Lemma stored_range : forall t s k, wft t -> stored t s k -> s < tsize t.
Proof. intros t s k Hw [A _]. apply nth_error_some_lt in A. rewrite (w_keys t Hw) in A. exact A. Qed.

(** query *)
Lemma find_slot_spec : forall (ks : list K) k o n loc, o + loc + n <= length ks ->
  (exists s, find_slot keq ks k o loc n = Some (Some s) /\ nth_error ks s = Some k)
  \/ (find_slot keq ks k o loc n = Some None /\ forall j, loc <= j < loc + n -> nth_error ks (o + j) <> Some k).
Proof.
  induction n; intros loc Hl; simpl.
  - right. split; [reflexivity|]. intros; lia.
  - destruct (nth_error_lt_some ks (o + loc)) as [c Hc]; [lia|]. rewrite Hc.
    destruct (keq c k) as [E|E]; [left; exists (o + loc); subst; auto|].
    destruct (IHn (S loc)) as [L|[L R]]; [lia|left; exact L|right]. split; [exact L|].
    intros j Hj. destruct (Nat.eq_dec j loc); [subst; congruence|apply R; lia].
Qed.
Lemma find_from_spec : forall t k, wft t -> nb t <> 0 -> 0 < B -> forall n it,
  (exists s, find_from keq h B t k it n = Some (Some s) /\ nth_error (keys t) s = Some k)
  \/ (find_from keq h B t k it n = Some None /\ forall i j, it <= i < it + n -> j < B -> nth_error (keys t) (off t k i + j) <> Some k).
Proof.
  intros t k Hw Hn HB. induction n; intros it; simpl.
  - right. split; [reflexivity|]. intros; lia.
  - assert (R : off t k it + 0 + B <= length (keys t)).
    { rewrite (w_keys t Hw), (w_mult t Hw). unfold off. pose proof (off_in_range (h it k) (nb t) B (B-1) Hn ltac:(lia)). lia. }
    destruct (find_slot_spec (keys t) k (off t k it) B 0 R) as [(s & E & Hs)|[E Hs]]; rewrite E.
    + left. exists s. auto.
    + destruct (IHn (S it)) as [L|[L Q]]; [left; exact L|right]. split; [exact L|].
      intros i j Hi Hj. destruct (Nat.eq_dec i it); [subst i; apply Hs; lia|apply Q; lia].
Qed.
Lemma query_slot_stored : forall t k s, wft t -> 0 < B -> stored t s k -> query_slot keq h B t k = Some (Some s).
Proof.
  intros t k s Hw HB Hs. unfold query_slot. destruct (Nat.eqb_spec (nb t) 0) as [E|E].
  - pose proof (stored_range t s k Hw Hs) as Hr. rewrite (w_mult t Hw), E in Hr. lia.
  - destruct (w_pos t Hw s k Hs) as (it & ld & Hi & Hl & Es & _).
    destruct (find_from_spec t k Hw E HB 3 0) as [(s' & F & N)|[F N]]; rewrite F.
    + f_equal. f_equal. eapply stored_unique; eauto. split; [exact N|apply Hs].
    + elim (N it ld); [lia|lia|]. rewrite <- Es. apply Hs.
Qed.
Lemma query_slot_absent : forall t k, wft t -> 0 < B -> k <> sent -> (forall s, ~ stored t s k) -> query_slot keq h B t k = Some None.
Proof.
  intros t k Hw HB Hk Hs. unfold query_slot. destruct (Nat.eqb_spec (nb t) 0) as [E|E]; [reflexivity|].
  destruct (find_from_spec t k Hw E HB 3 0) as [(s' & F & N)|[F N]]; rewrite F; [|reflexivity].
  elim (Hs s'). split; auto.
Qed.

(** growth of the table *)
Definition grows (t t' : table) : Prop := tsize t' = tsize t /\ (forall s k, stored t s k -> stored t' s k).
Lemma grows_refl : forall t, grows t t. Proof. split; auto. Qed.
Lemma nb_grows : forall t t', tsize t' = tsize t -> nb t' = nb t. Proof. intros t t' H. unfold BhtModel.nb. rewrite H. reflexivity. Qed.
Lemma off_grows : forall t t' k it, tsize t' = tsize t -> off t' k it = off t k it.
Proof. intros t t' k it H. unfold BhtModel.off. rewrite (nb_grows t t' H). reflexivity. Qed.
Lemma passed_grows : forall t t' k it ld, grows t t' -> passed t k it ld -> passed t' k it ld.
Proof.
  intros t t' k it ld [Ht Hs] Hp it' ld' Hb. destruct (Hp it' ld' Hb) as (k' & A & C). exists k'. rewrite (off_grows t t' k it' Ht). auto.
Qed.
(** a change that leaves the keys alone *)
Lemma wft_same_keys : forall t t', wft t -> keys t' = keys t -> tsize t' = tsize t -> length (inds t') = length (inds t) -> length (act t') = length (act t) -> wft t'.
Proof.
  intros t t' Hw Hk Ht Hi Ha. pose proof (nb_grows t t' Ht) as En.
  assert (G : grows t t') by (split; [exact Ht|]; unfold stored; rewrite Hk; auto).
  constructor.
  - rewrite Ht, En. apply w_mult; auto.
  - rewrite Hk, Ht. apply w_keys; auto.
  - rewrite Hi, Ht. apply w_inds; auto.
  - rewrite Ha, Ht. apply w_act; auto.
  - intros b Hb. rewrite Hk. apply w_last; auto. rewrite <- En. exact Hb.
  - intros s k Hs. assert (Hs' : stored t s k) by (unfold stored in *; rewrite Hk in Hs; exact Hs).
    destruct (w_pos t Hw s k Hs') as (it & ld & A & C & D & E). exists it, ld. rewrite (off_grows t t' k it Ht).
    repeat split; auto. eapply passed_grows; eauto.
Qed.
Lemma slot_last : forall hv n b ld, 0 < B -> ld < B - 1 -> hv mod n * B + ld <> b * B + (B - 1).
Proof.
  intros hv n b ld HB Hl E. set (x := hv mod n) in *. clearbody x.
  destruct (lt_eq_lt_dec x b) as [[C|C]|C]; [|subst; lia|].
  - assert (x * B + B <= b * B) by nia. lia.
  - assert (b * B + B <= x * B) by nia. lia.
Qed.
(** a successful claim *)
Lemma claim_grows : forall t k it ld ks, nth_error (keys t) (off t k it + ld) = Some sent ->
  upd (keys t) (off t k it + ld) k = Some ks -> grows t (set_keys t ks).
Proof.
  intros t k it ld ks Hs Hu. split; [reflexivity|]. intros s k' [A C]. split; [|exact C].
  cbn [keys set_keys]. destruct (Nat.eq_dec s (off t k it + ld)) as [E|E].
  - subst s. congruence.
  - rewrite (upd_nth_neq _ _ _ _ _ Hu); auto.
Qed.
Lemma wft_claim : forall t k it ld ks, wft t -> nb t <> 0 -> 0 < B -> it < 3 -> ld < B - 1 -> passed t k it ld ->
  nth_error (keys t) (off t k it + ld) = Some sent ->
  upd (keys t) (off t k it + ld) k = Some ks -> wft (set_keys t ks).
Proof.
  intros t k it ld ks Hw Hn HB Hi Hl Hp Hs Hu. pose proof (claim_grows t k it ld ks Hs Hu) as G.
  constructor; try (apply Hw).
  - cbn [keys set_keys tsize]. rewrite (upd_length _ _ _ _ Hu). apply w_keys; auto.
  - intros b Hb. cbn [keys set_keys]. rewrite (upd_nth_neq _ _ _ _ _ Hu).
    + apply w_last; auto.
    + unfold off. apply slot_last; auto.
  - intros s k' [A C]. cbn [keys set_keys] in A. destruct (Nat.eq_dec s (off t k it + ld)) as [E|E].
    + subst s. rewrite (upd_nth_eq _ _ _ _ Hu) in A. inversion A; subst k'. exists it, ld. repeat split; auto.
      apply (passed_grows t (set_keys t ks)); auto.
    + rewrite (upd_nth_neq _ _ _ _ _ Hu) in A; auto.
      destruct (w_pos t Hw s k' (conj A C)) as (it' & ld' & P1 & P2 & P3 & P4). exists it', ld'. repeat split; auto.
      apply (passed_grows t (set_keys t ks)); auto.
Qed.

(** invariant *)
Definition slot_of (th : thread) : option nat :=
  match cur th with Some (_, Count s) | Some (_, WIdx s _) | Some (_, WAct s _) => Some s | _ => None end.
Definition pend (th : thread) (n : Z) (s : nat) : Prop := exists o, cur th = Some (o, WIdx s n) \/ cur th = Some (o, WAct s n).
Definition done (t : table) (n : Z) (s : nat) (k : K) : Prop := nth_error (inds t) s = Some n /\ (0 <= n)%Z /\ nth_error (act t) (Z.to_nat n) = Some k.
Definition op_ok (mode : bool) (a : list K) (o : op) : Prop :=
  okey o <> sent /\ if mode then oidx o = (-1)%Z /\ oenq o = true else oenq o = false /\ (0 <= oidx o)%Z /\ nth_error a (Z.to_nat (oidx o)) = Some (okey o).
Definition tok (t : table) (own : list (Z * nat)) (th : thread) : Prop :=
  match cur th with
  | None => True
  | Some (o, p) => nb t <> 0 /\
    match p with
    | Load it ld => it < 3 /\ ld <= B - 1 /\ passed t (okey o) it ld
    | Cas it ld => it < 3 /\ ld < B - 1 /\ passed t (okey o) it ld
    | Count s => stored t s (okey o) /\ ~ In s (map snd own) /\ oidx o = (-1)%Z
    | WIdx s n => stored t s (okey o) /\ In (n, s) own /\ (oenq o = false -> n = oidx o)
    | WAct s n => stored t s (okey o) /\ In (n, s) own /\ nth_error (inds t) s = Some n /\ oenq o = true
    end
  end.
Definition ops_of (th : thread) : list op := match cur th with Some (o, _) => [o] | None => [] end ++ todo th.
Definition own_mode (mode : bool) (t : table) (own : list (Z * nat)) : Prop :=
  if mode then map fst own = map Z.of_nat (seq 0 (cnt t)) else forall n s, In (n, s) own -> (0 <= n)%Z /\ Z.to_nat n < cnt t.
Record inv (mode : bool) (t : table) (ths : list thread) (own : list (Z * nat)) : Prop := {
  i_wf : wft t;
  i_tok : forall i th, nth_error ths i = Some th -> tok t own th;
  i_ops : forall i th, nth_error ths i = Some th -> Forall (op_ok mode (firstn (cnt t) (act t))) (ops_of th);
  i_disj : forall i j th th' s, nth_error ths i = Some th -> nth_error ths j = Some th' -> slot_of th = Some s -> slot_of th' = Some s -> i = j;
  i_nodup : NoDup (map snd own);
  i_own : forall n s, In (n, s) own -> exists k, stored t s k /\ (done t n s k \/ exists i th, nth_error ths i = Some th /\ pend th n s);
  i_cover : forall s k, stored t s k -> In s (map snd own) \/ exists i th o, nth_error ths i = Some th /\ cur th = Some (o, Count s);
  i_mode : own_mode mode t own }.

Lemma slot_stored : forall t own th s, tok t own th -> slot_of th = Some s -> exists k, stored t s k.
Proof.
  intros t own th s Ht Hs. unfold slot_of, tok in *. destruct (cur th) as [[o p]|]; [|discriminate].
  destruct Ht as [_ Ht]. destruct p; inversion Hs; subst; destruct Ht as [Ht _]; eauto.
Qed.
Lemma pend_slot : forall th n s, pend th n s -> slot_of th = Some s.
Proof. intros th n s [o [H|H]]; unfold slot_of; rewrite H; reflexivity. Qed.
Lemma pend_own : forall t own th n s, tok t own th -> pend th n s -> In (n, s) own.
Proof. intros t own th n s Ht [o [H|H]]; unfold tok in Ht; rewrite H in Ht; apply Ht. Qed.
Lemma snd_fun : forall (own : list (Z * nat)) n n' s, NoDup (map snd own) -> In (n, s) own -> In (n', s) own -> n = n'.
Proof.
  induction own as [|[m r] own IH]; intros n n' s Hd H1 H2; [destruct H1|]. simpl in Hd. inversion Hd; subst.
  destruct H1 as [H1|H1], H2 as [H2|H2].
  - congruence.
  - inversion H1; subst. elim H3. apply in_map_iff. exists (n', s); auto.
  - inversion H2; subst. elim H3. apply in_map_iff. exists (n, s); auto.
  - eapply IH; eauto.
Qed.

(** preservation, given what the step of thread i did *)
Lemma inv_step : forall mode t ths own i th t' th' ths' own',
  inv mode t ths own -> nth_error ths i = Some th -> upd ths i th' = Some ths' ->
  wft t' -> grows t t' -> tok t' own' th' -> (Forall (op_ok mode (firstn (cnt t') (act t'))) (ops_of th')) ->
  (mode = false -> act t' = act t /\ cnt t' = cnt t) ->
  (forall s n, nth_error (inds t) s = Some n -> nth_error (inds t') s = Some n \/ slot_of th = Some s) ->
  (forall s, slot_of th' = Some s -> slot_of th = Some s \/ forall k, ~ stored t s k) ->
  (own' = own \/ exists n s, own' = own ++ [(n, s)] /\ ~ In s (map snd own) /\ pend th' n s) ->
  (forall n s k, In (n, s) own -> stored t s k -> done t n s k -> done t' n s k) ->
  (forall n s k, In (n, s) own -> stored t s k -> pend th n s -> done t' n s k \/ pend th' n s) ->
  (forall s k, stored t' s k -> stored t s k \/ In s (map snd own') \/ exists o, cur th' = Some (o, Count s)) ->
  (forall s o, cur th = Some (o, Count s) -> In s (map snd own') \/ exists o, cur th' = Some (o, Count s)) ->
  own_mode mode t' own' -> inv mode t' ths' own'.
Proof.
  intros mode t ths own i th t' th' ths' own' I Hi Hu Hw G Ht Ho Ha Hinds Hslot Hown Hdone Hpend Hcov Hcnt Hmode.
  assert (Nth : forall j x, nth_error ths' j = Some x -> (j = i /\ x = th') \/ (j <> i /\ nth_error ths j = Some x)).
  { intros j x Hj. destruct (Nat.eq_dec j i) as [E|E].
    - subst j. rewrite (upd_nth_eq _ _ _ _ Hu) in Hj. left. split; congruence.
    - rewrite (upd_nth_neq _ _ _ _ _ Hu) in Hj; auto. }
  assert (Hself : nth_error ths' i = Some th') by (apply (upd_nth_eq _ _ _ _ Hu)).
  assert (Hoth : forall j x, j <> i -> nth_error ths j = Some x -> nth_error ths' j = Some x).
  { intros j x Hj Hx. rewrite (upd_nth_neq _ _ _ _ _ Hu); auto. }
  assert (Hincl : forall x, In x own -> In x own').
  { intros x Hx. destruct Hown as [E|(n & s & E & _)]; subst own'; auto. apply in_or_app; auto. }
  assert (Hdis : forall j x s, j <> i -> nth_error ths j = Some x -> slot_of x = Some s -> slot_of th' <> Some s).
  { intros j x s Hj Hx Hs C. destruct (Hslot s C) as [D|D].
    - apply Hj. eapply i_disj; eauto.
    - destruct (slot_stored _ _ _ _ (i_tok _ _ _ _ I j x Hx) Hs) as [k Hk]. elim (D k Hk). }
  assert (Hdis0 : forall j x s, j <> i -> nth_error ths j = Some x -> slot_of x = Some s -> slot_of th <> Some s).
  { intros j x s Hj Hx Hs C. apply Hj. eapply i_disj; eauto. }
  constructor; auto.
  - (* tok *) intros j x Hj. destruct (Nth j x Hj) as [[E1 E2]|[E1 E2]]; [subst; auto|].
    pose proof (i_tok _ _ _ _ I j x E2) as T. unfold tok in *. destruct (cur x) as [[o p]|] eqn:Ec; auto.
    destruct T as [T0 T]. split; [rewrite (nb_grows t t'); [auto|apply G]|].
    destruct p as [it ld|it ld|s|s n|s n].
    + destruct T as (A & C & D). repeat split; auto. eapply passed_grows; eauto.
    + destruct T as (A & C & D). repeat split; auto. eapply passed_grows; eauto.
    + destruct T as (A & C & D). split; [apply G; auto|]. split; [|auto]. intros Hin.
      destruct Hown as [E|(n & s' & E & _ & P)]; subst own'; [auto|]. rewrite map_app, in_app_iff in Hin.
      destruct Hin as [Hin|[Hin|[]]]; [auto|]. simpl in Hin. subst s'.
      elim (Hdis j x s E1 E2). { unfold slot_of; rewrite Ec; auto. } eapply pend_slot; eauto.
    + destruct T as (A & C & D). split; [apply G; auto|]. split; auto.
    + destruct T as (A & C & D & F). split; [apply G; auto|]. split; auto. split; auto.
      destruct (Hinds s n D) as [Q|Q]; auto. elim (Hdis0 j x s E1 E2); auto. unfold slot_of; rewrite Ec; auto.
  - (* ops *) intros j x Hj. destruct (Nth j x Hj) as [[E1 E2]|[E1 E2]]; [subst; auto|].
    pose proof (i_ops _ _ _ _ I j x E2) as F. destruct mode.
    + eapply Forall_impl; [|exact F]. intros a. unfold op_ok. auto.
    + destruct (Ha eq_refl) as [-> ->]. auto.
  - (* disj *) intros j j' x x' s Hj Hj' Hs Hs'.
    destruct (Nth j x Hj) as [[E1 E2]|[E1 E2]], (Nth j' x' Hj') as [[F1 F2]|[F1 F2]]; subst; auto.
    + elim (Hdis j' x' s); auto.
    + elim (Hdis j x s); auto.
    + eapply i_disj; eauto.
  - (* nodup *) destruct Hown as [E|(n & s & E & Hn & _)]; subst own'; [apply (i_nodup _ _ _ _ I)|].
    rewrite map_app. simpl.
    apply (Permutation_NoDup (l := s :: map snd own)); [apply Permutation_cons_append|]. constructor; auto. apply (i_nodup _ _ _ _ I).
  - (* own *) intros n s Hin.
    assert (Old : In (n, s) own -> exists k, stored t' s k /\ (done t' n s k \/ exists i0 th0, nth_error ths' i0 = Some th0 /\ pend th0 n s)).
    { intros Hold. destruct (i_own _ _ _ _ I n s Hold) as (k & Hk & [D|(j & x & Hx & P)]).
      - exists k. split; [apply G; auto|]. left. eapply Hdone; eauto.
      - exists k. split; [apply G; auto|]. destruct (Nat.eq_dec j i) as [E|E].
        + subst j. assert (x = th) by congruence. subst x. destruct (Hpend n s k Hold Hk P) as [Q|Q]; [auto|]. right. exists i, th'. auto.
        + right. exists j, x. auto. }
    destruct Hown as [E|(n' & s' & E & Hn & P)]; subst own'; [auto|]. apply in_app_or in Hin. destruct Hin as [Hin|[Hin|[]]]; [auto|].
    inversion Hin; subst n' s'. destruct (slot_stored _ _ _ _ Ht (pend_slot _ _ _ P)) as [k Hk]. exists k. split; auto. right. exists i, th'. auto.
  - (* cover *) intros s k Hs. destruct (Hcov s k Hs) as [C|[C|(o & C)]]; [|auto|right; exists i, th', o; auto].
    destruct (i_cover _ _ _ _ I s k C) as [D|(j & x & o & Hx & Ec)].
    + left. apply in_map_iff in D. destruct D as (p & D1 & D2). apply in_map_iff. exists p. auto.
    + destruct (Nat.eq_dec j i) as [E|E].
      * subst j. assert (x = th) by congruence. subst x. destruct (Hcnt s o Ec) as [Q|(o' & Q)]; [auto|]. right. exists i, th', o'. auto.
      * right. exists j, x, o. auto.
Qed.
End P.
