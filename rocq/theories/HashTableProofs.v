From Coq Require Import Znumtheory.
From Verif Require Import Prelude HashTableModel HashTableSpec.
From Verif Require BhtLockProps BhtProofs4 VectorProofs.
Local Open Scope nat_scope.

(** the step 127 visits every slot *)
Lemma probe_inj n h i j : 0 < n -> Z.gcd 127 (Z.of_nat n) = 1%Z -> i < n -> j < n -> (h + 127 * i) mod n = (h + 127 * j) mod n -> i = j.
Proof.
  intros Hn G Hi Hj E.
  assert (W : forall a b, a <= b -> b < n -> (h + 127 * a) mod n = (h + 127 * b) mod n -> a = b).
  { intros a b Hab Hb Eq.
    assert (D : (Z.of_nat n | 127 * Z.of_nat (b - a))%Z).
    { pose proof (Nat.div_mod (h + 127 * a) n ltac:(lia)) as E1. pose proof (Nat.div_mod (h + 127 * b) n ltac:(lia)) as E2. rewrite Eq in E1.
      exists (Z.of_nat ((h + 127 * b) / n) - Z.of_nat ((h + 127 * a) / n))%Z.
      set (q1 := (h + 127 * a) / n) in *. set (q2 := (h + 127 * b) / n) in *. set (m := (h + 127 * b) mod n) in *. clearbody q1 q2 m.
      apply (f_equal Z.of_nat) in E1. apply (f_equal Z.of_nat) in E2.
      rewrite !Nat2Z.inj_add, !Nat2Z.inj_mul in E1, E2. rewrite Nat2Z.inj_sub by lia. cbn [Z.of_nat] in *. nia. }
    assert (D2 : (Z.of_nat n | Z.of_nat (b - a))%Z).
    { apply (Gauss _ 127); [exact D|]. apply rel_prime_sym. apply Zgcd_1_rel_prime. exact G. }
    destruct (Nat.eq_dec a b) as [|C]; [auto|]. apply Z.divide_pos_le in D2; [lia|lia]. }
  destruct (Nat.le_ge_cases i j) as [C|C]; [apply W; auto|symmetry; apply W; auto].
Qed.
Lemma probe_surj n h s : 0 < n -> Z.gcd 127 (Z.of_nat n) = 1%Z -> s < n -> exists j, j < n /\ (h + 127 * j) mod n = s.
Proof.
  intros Hn G Hs. set (l := map (fun j => (h + 127 * j) mod n) (seq 0 n)).
  assert (ND : NoDup l).
  { apply NoDup_nth_error. intros i j Hi E. unfold l in *. rewrite map_length, seq_length in Hi. rewrite !nth_error_map in E.
    rewrite (nth_error_nth' _ 0) in E by (rewrite seq_length; auto). rewrite seq_nth in E by auto. simpl in E.
    destruct (nth_error (seq 0 n) j) as [x|] eqn:Ex; [|discriminate]. pose proof (nth_error_some_lt _ _ _ Ex) as Hj. rewrite seq_length in Hj.
    rewrite (nth_error_nth' _ 0) in Ex by (rewrite seq_length; auto). rewrite seq_nth in Ex by auto. inversion Ex; subst. simpl in E. inversion E. eapply probe_inj; eauto. }
  assert (I : incl (seq 0 n) l).
  { apply NoDup_length_incl; [exact ND|unfold l; rewrite map_length; auto|]. intros x Hx. unfold l in Hx. apply in_map_iff in Hx. destruct Hx as (j & <- & _). apply in_seq. pose proof (Nat.mod_upper_bound (h + 127 * j) n). lia. }
  assert (In s l) as Hin by (apply I; apply in_seq; lia). unfold l in Hin. apply in_map_iff in Hin. destruct Hin as (j & E & Hj). apply in_seq in Hj. exists j. split; [lia|auto].
Qed.
Lemma size_odd e : Z.gcd 127 (Z.of_nat (table_size e)) = 1%Z \/ e = 0.
Proof.
  destruct e as [|e]; [auto|left]. unfold table_size. cbn [Nat.eqb]. set (a := Nat.log2_up (S e)). clearbody a.
  rewrite Nat2Z.inj_mul, Nat2Z.inj_pow. apply Zgcd_1_rel_prime. apply rel_prime_mult; [|apply Zgcd_1_rel_prime; reflexivity].
  induction a as [|a IH]; [apply Zgcd_1_rel_prime; reflexivity|]. change (Z.of_nat 2) with 2%Z in *. rewrite Nat2Z.inj_succ, Z.pow_succ_r by lia. apply rel_prime_mult; [apply Zgcd_1_rel_prime; reflexivity|exact IH].
Qed.

Section P.
Context {K : Type}.
Variable keq : forall a b : K, {a = b} + {a <> b}.
Variable sent : K.
Variable hash : K -> Z.
Notation table := (@table K).
Notation home := (home hash).
Definition slot (t : table) (k : K) (j : nat) : nat := (home t k + 127 * j) mod tsize t.
Definition stored (t : table) (s : nat) (k : K) : Prop := nth_error (keys t) s = Some k /\ k <> sent.
Definition passed (t : table) (k : K) (j : nat) : Prop := forall i, i < j -> exists k', stored t (slot t k i) k' /\ k' <> k.
Record rep (t : table) (ks : list K) : Prop := {
  r_pos : 0 < tsize t; r_gcd : Z.gcd 127 (Z.of_nat (tsize t)) = 1%Z;
  r_keys : length (keys t) = tsize t; r_inds : length (inds t) = tsize t; r_act : length (act t) = tsize t;
  r_nd : NoDup ks; r_ns : ~ In sent ks; r_cnt : cnt t = length ks; r_list : firstn (length ks) (act t) = ks;
  r_where : forall i k, nth_error ks i = Some k -> exists j, j < tsize t /\ stored t (slot t k j) k /\ passed t k j /\ nth_error (inds t) (slot t k j) = Some (Z.of_nat i);
  r_in : forall s k, stored t s k -> In k ks;
  r_one : forall s s' k, stored t s k -> stored t s' k -> s = s';
  r_free : forall s, nth_error (keys t) s = Some sent -> nth_error (inds t) s = Some (-1)%Z }.

Lemma home_lt t k : 0 < tsize t -> home t k < tsize t.
Proof.
  intros H. unfold HashTableModel.home. set (n := Z.of_nat (tsize t)). assert (Hn : (0 < n)%Z) by (unfold n; lia).
  assert (0 <= Z.rem (hash k) n + n)%Z. { pose proof (Z.rem_bound_abs (hash k) n ltac:(lia)). lia. }
  pose proof (Z.rem_bound_pos (Z.rem (hash k) n + n) n ltac:(lia) ltac:(lia)). unfold n in *. lia.
Qed.
Lemma slot_lt t k j : 0 < tsize t -> slot t k j < tsize t.
Proof. intros H. apply Nat.mod_upper_bound. lia. Qed.
Lemma slot0 t k : 0 < tsize t -> slot t k 0 = home t k.
Proof. intros H. unfold slot. rewrite Nat.mul_0_r, Nat.add_0_r. apply Nat.mod_small. apply home_lt; auto. Qed.
Lemma slot_next t k j : 0 < tsize t -> (slot t k j + 127) mod tsize t = slot t k (S j).
Proof. intros H. unfold slot. rewrite Nat.add_mod_idemp_l by lia. f_equal. lia. Qed.
Lemma stored_fun t s k k' : stored t s k -> stored t s k' -> k = k'.
Proof. intros [A _] [B _]. congruence. Qed.

Lemma slot_case t ks s : rep t ks -> s < tsize t -> (nth_error (keys t) s = Some sent) \/ (exists k', stored t s k').
Proof.
  intros R Hs. destruct (nth_error_lt_some (keys t) s) as [c Hc]; [rewrite (r_keys _ _ R); auto|]. destruct (keq c sent) as [->|C]; [auto|right; exists c; split; auto].
Qed.
(** all slots taken *)
Lemma passed_all t ks k : rep t ks -> passed t k (tsize t) -> ~ In k ks /\ tsize t <= length ks.
Proof.
  intros R Hp. split.
  - intros Hin. apply In_nth_error in Hin. destruct Hin as [i Hi]. destruct (r_where _ _ R i k Hi) as (j & Hj & Hs & _).
    destruct (Hp j Hj) as (k' & Hs' & Hne). apply Hne. eapply stored_fun; eauto.
  - assert (F : forall s, s < tsize t -> exists k', stored t s k').
    { intros s Hs. destruct (probe_surj (tsize t) (home t k) s (r_pos _ _ R) (r_gcd _ _ R) Hs) as (j & Hj & E). destruct (Hp j Hj) as (k' & Hk & _). unfold slot in Hk. rewrite E in Hk. eauto. }
    rewrite <- (r_keys _ _ R).
    assert (NDk : NoDup (keys t)).
    { apply NoDup_nth_error. intros a b Ha E. rewrite (r_keys _ _ R) in Ha. destruct (F a Ha) as (k' & A1 & A2). rewrite A1 in E. symmetry in E.
      apply (r_one _ _ R a b k'); split; auto. }
    apply NoDup_incl_length; [exact NDk|]. intros x Hx. apply In_nth_error in Hx. destruct Hx as [s Hs].
    assert (Hlt : s < tsize t) by (rewrite <- (r_keys _ _ R); eapply nth_error_some_lt; eauto).
    destruct (F s Hlt) as (k' & Hk). assert (k' = x) as -> by (destruct Hk; congruence). eapply r_in; eauto.
Qed.

(** the insertion probe *)
Lemma probe_ok t ks k : rep t ks -> k <> sent -> (In k ks \/ length ks < tsize t) ->
  forall fuel j, j + fuel = tsize t -> passed t k j ->
  exists b j', HashTableModel.probe keq sent fuel t k (slot t k j) = Ok (b, slot t k j') /\ j' < tsize t /\ passed t k j' /\
    (b = false /\ stored t (slot t k j') k \/ b = true /\ nth_error (keys t) (slot t k j') = Some sent).
Proof.
  intros R Hk Hroom. induction fuel as [|f IH]; intros j Hj Hp.
  - exfalso. assert (j = tsize t) by lia. subst j. destruct (passed_all _ _ _ R Hp). destruct Hroom; [auto|lia].
  - cbn [HashTableModel.probe].
    destruct (nth_error_lt_some (keys t) (slot t k j)) as [c Hc]; [rewrite (r_keys _ _ R); apply slot_lt; apply R|]. rewrite Hc.
    destruct (keq c sent) as [->|C1].
    + exists true, j. split; [reflexivity|]. split; [lia|]. auto.
    + destruct (keq c k) as [->|C2].
      * exists false, j. split; [reflexivity|]. split; [lia|]. split; [auto|]. left. repeat split; auto.
      * rewrite slot_next by apply R. apply IH; [lia|]. intros i Hi. destruct (Nat.eq_dec i j) as [->|]; [exists c; repeat split; auto|apply Hp; lia].
Qed.

Lemma insert_new t ks k j : rep t ks -> k <> sent -> ~ In k ks -> length ks < tsize t -> j < tsize t -> passed t k j -> nth_error (keys t) (slot t k j) = Some sent ->
  exists t', match upd (keys t) (slot t k j) k, upd (inds t) (slot t k j) (Z.of_nat (cnt t)), upd (act t) (cnt t) k with
      | Some ks, Some xs, Some a => Ok ({| keys := ks; inds := xs; cnt := S (cnt t); act := a; tsize := tsize t |}, Z.of_nat (cnt t))
      | _, _, _ => Oob
      end = Ok (t', Z.of_nat (length ks)) /\ rep t' (ks ++ [k]) /\ tsize t' = tsize t.
Proof.
  intros R Hk Hni Hlen Hj Hp Hs.
  pose proof (slot_lt t k j (r_pos _ _ R)) as Hsl.
  destruct (upd_some (keys t) (slot t k j) k) as [l1 U1]; [rewrite (r_keys _ _ R); auto|].
  destruct (upd_some (inds t) (slot t k j) (Z.of_nat (cnt t))) as [l2 U2]; [rewrite (r_inds _ _ R); auto|].
  destruct (upd_some (act t) (cnt t) k) as [l3 U3]; [rewrite (r_act _ _ R), (r_cnt _ _ R); auto|].
  rewrite U1, U2, U3. rewrite (r_cnt _ _ R) in *. eexists. split; [reflexivity|]. split; [|reflexivity].
  set (t' := {| keys := l1; inds := l2; cnt := S (length ks); act := l3; tsize := tsize t |}).
  assert (HS : forall k0 i, slot t' k0 i = slot t k0 i) by reflexivity.
  assert (Keep : forall s k0, stored t s k0 -> stored t' s k0 /\ s <> slot t k j).
  { intros s k0 [A B]. assert (s <> slot t k j) by congruence. split; [split; [|auto]|auto]. cbn [keys t']. rewrite (upd_nth_neq _ _ _ _ _ U1); auto. }
  assert (Back : forall s k0, stored t' s k0 -> (s = slot t k j /\ k0 = k) \/ (s <> slot t k j /\ stored t s k0)).
  { intros s k0 [A B]. destruct (BhtLockProps.nth_upd_cases _ _ _ _ _ _ U1 A) as [[-> ->]|[C D]]; [left; auto|right; split; [auto|split; auto]]. }
  assert (KP : forall k0 i, passed t k0 i -> passed t' k0 i).
  { intros k0 i H i0 Hi0. destruct (H i0 Hi0) as (k' & A & B). exists k'. split; [apply Keep in A; apply A|auto]. }
  constructor; cbn [keys inds cnt act tsize t'].
  - apply R.
  - apply R.
  - rewrite (upd_length _ _ _ _ U1). apply R.
  - rewrite (upd_length _ _ _ _ U2). apply R.
  - rewrite (upd_length _ _ _ _ U3). apply R.
  - apply (Permutation_NoDup (Permutation_cons_append ks k)). constructor; [auto|apply R].
  - intros Hin. apply in_app_or in Hin. destruct Hin as [Hin|[->|[]]]; [apply (r_ns _ _ R Hin)|auto].
  - rewrite app_length. simpl. lia.
  - rewrite app_length. simpl. rewrite Nat.add_1_r. rewrite <- (BhtLockProps.firstn_next l3 (length ks) k) by (eapply upd_nth_eq; eauto). f_equal.
    rewrite <- (r_list _ _ R) at 2. apply nth_error_ext. intros i.
    destruct (Nat.lt_ge_cases i (length ks)) as [C|C].
    + rewrite !BhtProofs4.nth_firstn by auto. apply (upd_nth_neq _ _ _ _ _ U3). lia.
    + rewrite !(proj2 (nth_error_None _ _)); auto; rewrite firstn_length; lia.
  - intros i k0 Hi. destruct (Nat.lt_ge_cases i (length ks)) as [C|C].
    + rewrite nth_error_app1 in Hi by auto. destruct (r_where _ _ R i k0 Hi) as (j0 & A & B & D & E). exists j0. rewrite HS. destruct (Keep _ _ B) as [B1 B2].
      repeat split; auto; try apply B1. rewrite (upd_nth_neq _ _ _ _ _ U2); auto.
    + rewrite nth_error_app2 in Hi by auto. assert (i = length ks /\ k0 = k) as [-> ->].
      { destruct (i - length ks) as [|[|?]] eqn:Ei; simpl in Hi; try discriminate. split; [lia|congruence]. }
      exists j. rewrite HS. split; [auto|]. split; [split; [eapply upd_nth_eq; eauto|auto]|]. split; [apply KP; auto|eapply upd_nth_eq; eauto].
  - intros s k0 H. apply in_or_app. destruct (Back _ _ H) as [[_ ->]|[_ H']]; [right; left; auto|left; eapply r_in; eauto].
  - intros s s' k0 H1 H2. destruct (Back _ _ H1) as [[-> E1]|[N1 H1']]; destruct (Back _ _ H2) as [[-> E2]|[N2 H2']]; auto.
    + subst k0. exfalso. apply Hni. eapply r_in; eauto.
    + subst k0. exfalso. apply Hni. eapply r_in; eauto.
    + eapply r_one; eauto.
  - intros s H. destruct (BhtLockProps.nth_upd_cases _ _ _ _ _ _ U1 H) as [[-> E]|[N H']]; [congruence|]. rewrite (upd_nth_neq _ _ _ _ _ U2); auto. apply (r_free _ _ R); auto.
Qed.

Lemma insert_ok t ks k : rep t ks -> k <> sent -> (In k ks \/ length ks < tsize t) ->
  exists t', HashTableModel.insert keq sent hash (tsize t) t k = Ok (t', if in_dec keq k ks then (-1)%Z else Z.of_nat (length ks)) /\
    rep t' (if in_dec keq k ks then ks else ks ++ [k]) /\ tsize t' = tsize t.
Proof.
  intros R Hk Hroom. unfold HashTableModel.insert. rewrite (proj2 (Nat.eqb_neq _ _)) by (pose proof (r_pos _ _ R); lia).
  destruct (probe_ok t ks k R Hk Hroom (tsize t) 0) as (b & j & E & Hj & Hp & C); [lia|intros i Hi; lia|]. rewrite slot0 in E by apply R. rewrite E.
  destruct C as [[-> Hs]|[-> Hs]].
  - exists t. destruct (in_dec keq k ks) as [|N]; [auto|]. exfalso. apply N. eapply r_in; eauto.
  - assert (Hni : ~ In k ks).
    { intros Hin. apply In_nth_error in Hin. destruct Hin as [i Hi]. destruct (r_where _ _ R i k Hi) as (j0 & Hj0 & Hs0 & Hp0 & _).
      destruct (lt_eq_lt_dec j j0) as [[L|L]|L].
      - destruct (Hp0 j L) as (k' & [A B] & _). congruence.
      - subst. destruct Hs0. congruence.
      - destruct (Hp j0 L) as (k' & A & B). apply B. eapply stored_fun; eauto. }
    destruct (in_dec keq k ks) as [|_]; [contradiction|]. destruct Hroom as [|Hl]; [contradiction|]. apply insert_new; auto.
Qed.

Lemma insertions_length ks l : length ks <= length (fst (insertions keq ks l)).
Proof.
  revert ks. induction l as [|k r IH]; intros ks; simpl; [lia|]. destruct (in_dec keq k ks).
  - specialize (IH ks). destruct (insertions keq ks r); simpl in *; lia.
  - specialize (IH (ks ++ [k])). rewrite app_length in IH. simpl in IH. destruct (insertions keq (ks ++ [k]) r); simpl in *; lia.
Qed.
Lemma insert_all_ok l : forall t ks, rep t ks -> Forall (fun k => k <> sent) l -> length (fst (insertions keq ks l)) <= tsize t ->
  exists t', insert_all keq sent hash (tsize t) t l = Ok (t', snd (insertions keq ks l)) /\ rep t' (fst (insertions keq ks l)) /\ tsize t' = tsize t.
Proof.
  induction l as [|k r IH]; intros t ks R F Hlen.
  - exists t. auto.
  - inversion F; subst. cbn [insertions] in *. cbn [insert_all].
    assert (Hroom : In k ks \/ length ks < tsize t).
    { destruct (in_dec keq k ks) as [|N]; [auto|right]. pose proof (insertions_length (ks ++ [k]) r) as L. rewrite app_length in L. simpl in L.
      destruct (insertions keq (ks ++ [k]) r); simpl in *; lia. }
    destruct (insert_ok t ks k R H1 Hroom) as (t1 & E1 & R1 & S1). rewrite E1.
    destruct (in_dec keq k ks) as [|N].
    + destruct (IH t1 ks R1 H2) as (t2 & E2 & R2 & S2). { destruct (insertions keq ks r); simpl in *; lia. }
      rewrite S1 in E2. rewrite E2. exists t2. destruct (insertions keq ks r); simpl in *. repeat split; auto; try apply R2. lia.
    + destruct (IH t1 (ks ++ [k]) R1 H2) as (t2 & E2 & R2 & S2). { destruct (insertions keq (ks ++ [k]) r); simpl in *; lia. }
      rewrite S1 in E2. rewrite E2. exists t2. destruct (insertions keq (ks ++ [k]) r); simpl in *. repeat split; auto; try apply R2. lia.
Qed.
Lemma rep_cleared t n : 0 < n -> Z.gcd 127 (Z.of_nat n) = 1%Z -> cleared sent t n -> rep t [].
Proof.
  intros Hn G (E1 & E2 & E3 & E4 & E5). constructor; rewrite ?E1, ?E2, ?E3, ?E4, ?E5, ?repeat_length; auto.
  - constructor.
  - intros i k H. destruct i; discriminate.
  - intros s k [A B]. rewrite E2 in A. apply nth_error_In in A. apply repeat_spec in A. contradiction.
  - intros s s' k [A B]. rewrite E2 in A. apply nth_error_In in A. apply repeat_spec in A. contradiction.
  - intros s A. apply VectorProofs.nth_repeat_lt. apply nth_error_some_lt in A. rewrite repeat_length in A. auto.
Qed.

(** query, whose probe skips the reduction when it reaches exactly the table size *)
Lemma next_query_ok t k j : 0 < tsize t -> slot t k j + 127 <> tsize t -> next_query t (slot t k j) = slot t k (S j).
Proof.
  intros H N. unfold next_query. rewrite <- slot_next by auto. destruct (Nat.ltb_spec (tsize t) (slot t k j + 127)); [auto|]. rewrite Nat.mod_small; lia.
Qed.
Lemma query_from_ok t ks k : rep t ks -> k <> sent -> length ks < tsize t -> (forall s, s + 127 = tsize t -> nth_error (keys t) s = Some sent) ->
  forall fuel j, j + fuel = tsize t -> passed t k j ->
  exists o, query_from keq fuel t k (slot t k j) = Ok o /\ match o with Some e => stored t e k | None => ~ In k ks end.
Proof.
  intros R Hk Hroom Hedge. induction fuel as [|f IH]; intros j Hj Hp.
  - exfalso. assert (j = tsize t) by lia. subst j. destruct (passed_all _ _ _ R Hp). lia.
  - cbn [query_from]. pose proof (slot_lt t k j (r_pos _ _ R)) as Hsl.
    destruct (nth_error_lt_some (keys t) (slot t k j)) as [c Hc]; [rewrite (r_keys _ _ R); auto|].
    destruct (nth_error_lt_some (inds t) (slot t k j)) as [x Hx]; [rewrite (r_inds _ _ R); auto|]. rewrite Hc, Hx.
    destruct (keq k c) as [->|C1].
    + eexists. split; [reflexivity|split; auto].
    + destruct (keq c sent) as [->|C2].
      * rewrite (r_free _ _ R _ Hc) in Hx. inversion Hx; subst. eexists. split; [reflexivity|]. intros Hin.
        apply In_nth_error in Hin. destruct Hin as [i Hi]. destruct (r_where _ _ R i k Hi) as (j0 & Hj0 & Hs0 & Hp0 & _).
        destruct (lt_eq_lt_dec j j0) as [[L|L]|L].
        -- destruct (Hp0 j L) as (k' & [A B] & _). congruence.
        -- subst. destruct Hs0. congruence.
        -- destruct (Hp j0 L) as (k' & A & B). apply B. eapply stored_fun; eauto.
      * assert (Hst : stored t (slot t k j) c) by (split; auto).
        pose proof (r_in _ _ R _ _ Hst) as Hin. apply In_nth_error in Hin. destruct Hin as [i Hi]. destruct (r_where _ _ R i c Hi) as (j0 & _ & Hs0 & _ & Hx0).
        rewrite (r_one _ _ R _ _ _ Hs0 Hst) in Hx0. rewrite Hx in Hx0. inversion Hx0; subst x. destruct (Z.eqb_spec (Z.of_nat i) (-1)); [lia|].
        rewrite next_query_ok; [|apply R|intros E; apply Hedge in E; congruence].
        apply IH; [lia|]. intros i0 Hi0. destruct (Nat.eq_dec i0 j) as [->|]; [exists c; repeat split; auto|apply Hp; lia].
Qed.
Lemma query_ok t ks k : rep t ks -> k <> sent -> length ks < tsize t -> (forall s, s + 127 = tsize t -> nth_error (keys t) s = Some sent) ->
  exists x, query keq hash (tsize t) t k = Ok x /\ answer ks k x.
Proof.
  intros R Hk Hroom Hedge. unfold query, entry. rewrite (proj2 (Nat.eqb_neq _ _)) by (pose proof (r_pos _ _ R); lia).
  destruct (query_from_ok t ks k R Hk Hroom Hedge (tsize t) 0) as (o & E & H); [lia|intros i Hi; lia|]. rewrite slot0 in E by apply R. rewrite E.
  destruct o as [e|]; [|exists (-1)%Z; split; [auto|left; auto]].
  pose proof (r_in _ _ R _ _ H) as Hin. apply In_nth_error in Hin. destruct Hin as [i Hi]. destruct (r_where _ _ R i k Hi) as (j0 & _ & Hs0 & _ & Hx0).
  rewrite (r_one _ _ R _ _ _ Hs0 H) in Hx0. rewrite Hx0. eexists. split; [reflexivity|]. right. rewrite Nat2Z.id. split; [lia|auto].
Qed.
(** inserting an absent key into a full table *)
Lemma full_diverges t ks k : rep t ks -> k <> sent -> ~ In k ks -> length ks = tsize t -> forall fuel j, probe keq sent fuel t k (slot t k j) = Fuel.
Proof.
  intros R Hk Hni Hfull.
  assert (F : forall s, s < tsize t -> exists k', stored t s k').
  { intros s Hs. destruct (slot_case t ks s R Hs) as [E|]; [|auto]. exfalso.
    assert (Hlen : length ks <= length (remove keq sent (keys t))).
    { apply NoDup_incl_length; [apply R|]. intros x Hx. apply In_nth_error in Hx. destruct Hx as [i Hi]. destruct (r_where _ _ R i x Hi) as (j0 & _ & [Hs0 Hn] & _).
      apply in_in_remove; [auto|]. eapply nth_error_In; eauto. }
    assert (length (remove keq sent (keys t)) < length (keys t)) by (apply remove_length_lt; eapply nth_error_In; eauto).
    rewrite (r_keys _ _ R) in *. lia. }
  induction fuel as [|f IH]; intros j; cbn [probe]; destruct (F (slot t k j) (slot_lt _ _ _ (r_pos _ _ R))) as (k' & Hst); pose proof Hst as [A B]; rewrite A;
    (destruct (keq k' sent); [contradiction|]); (destruct (keq k' k) as [->|]; [exfalso; apply Hni; eapply r_in; eauto|]); [auto|].
  rewrite slot_next by apply R. apply IH.
Qed.
End P.
