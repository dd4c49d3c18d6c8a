From Verif Require Import Prelude BitLin BitsModel BitsProofs BitsProofs2 MaskModel MaskSpec.
Local Open Scope N_scope.

(** the program run by the model *)
Definition bindo {A B} (x : option A) (f : A -> option B) : option B := match x with Some a => f a | None => None end.
Fixpoint mrun (size : nat) (p : mprog) : option (list N) :=
  match p with
  | PEmpty => Some (ctor_empty size)
  | PBool b => Some (ctor_bool size b)
  | POn p n => bindo (mrun size p) (fun m => setOn m n)
  | POff p n => bindo (mrun size p) (fun m => setOff m n)
  | PSet p n b => bindo (mrun size p) (fun m => set_bit m n b)
  | PToggle p n => bindo (mrun size p) (fun m => toggle m n)
  | PAll p b => bindo (mrun size p) (fun m => Some (set_all m b))
  | PToggleAll p => bindo (mrun size p) (fun m => Some (toggle_all m))
  | PAnd p q => bindo (mrun size p) (fun a => bindo (mrun size q) (fun b => Some (op_and a b)))
  | POr p q => bindo (mrun size p) (fun a => bindo (mrun size q) (fun b => Some (op_or a b)))
  | PSub p q => bindo (mrun size p) (fun a => bindo (mrun size q) (fun b => Some (op_sub a b)))
  | PXor p q => bindo (mrun size p) (fun a => bindo (mrun size q) (fun b => Some (op_xor a b)))
  end.

Definition mbit (m : list N) (i : nat) : bool := N.testbit (nth (i / 64) m 0) (N.of_nat (i mod 64)).
Definition wfm (n : nat) (m : list N) : Prop := length m = n /\ Forall (fun w => w < 2 ^ 64) m.

Lemma mbit_cons w m i : mbit (w :: m) i = if (i <? 64)%nat then N.testbit w (N.of_nat i) else mbit m (i - 64).
Proof.
  unfold mbit. destruct (Nat.ltb_spec i 64) as [L|L].
  - rewrite Nat.div_small, Nat.mod_small by assumption. reflexivity.
  - replace i with ((i - 64) + 1 * 64)%nat at 1 2 by lia. rewrite Nat.div_add, Nat.mod_add by lia.
    rewrite Nat.add_1_r. reflexivity.
Qed.
Lemma wfm_cons n w m : wfm (S n) (w :: m) <-> w < 2 ^ 64 /\ wfm n m.
Proof.
  unfold wfm. split.
  - intros [H1 H2]. inversion H2; subst. cbn in H1. auto.
  - intros [H1 [H2 H3]]. split; [cbn; lia|constructor; assumption].
Qed.
Lemma mbit_out m i : (64 * length m <= i)%nat -> mbit m i = false.
Proof.
  intro H. unfold mbit. rewrite nth_overflow; [apply N.bits_0|].
  apply Nat.div_le_lower_bound; lia.
Qed.

Lemma wbit_bits n i : (i < 64)%nat -> N.testbit (wbit n) (N.of_nat i) = (i =? n mod 64)%nat.
Proof.
  intro H. unfold wbit. rewrite N.shiftl_1_l, N.pow2_bits_eqb.
  destruct (Nat.eqb_spec i (n mod 64)) as [->|]; [apply N.eqb_refl|]. apply N.eqb_neq. lia.
Qed.
Lemma wbit_lt n : wbit n < 2 ^ 64.
Proof.
  unfold wbit. rewrite N.shiftl_1_l. apply pow2_lt. pose proof (Nat.mod_upper_bound n 64 ltac:(lia)). lia.
Qed.
Lemma wnot_bits x i : (i < 64)%nat -> N.testbit (wnot 64 x) (N.of_nat i) = negb (N.testbit x (N.of_nat i)).
Proof. intro H. unfold wnot. rewrite N.lxor_spec, N.ones_spec_low by lia. apply xorb_true_r. Qed.
Lemma wnot_lt x : x < 2 ^ 64 -> wnot 64 x < 2 ^ 64.
Proof.
  intro H. unfold wnot. apply lt_pow2_bits. intros i Hi. rewrite N.lxor_spec, (testbit_small x 64), N.ones_spec_high by assumption.
  reflexivity.
Qed.
Lemma lor_lt a b : a < 2 ^ 64 -> b < 2 ^ 64 -> N.lor a b < 2 ^ 64.
Proof. intros. apply lt_pow2_bits. intros i Hi. rewrite N.lor_spec, !(testbit_small _ 64) by assumption. reflexivity. Qed.
Lemma lxor_lt64 a b : a < 2 ^ 64 -> b < 2 ^ 64 -> N.lxor a b < 2 ^ 64.
Proof. intros. apply lt_pow2_bits. intros i Hi. rewrite N.lxor_spec, !(testbit_small _ 64) by assumption. reflexivity. Qed.
Lemma land_lt64 a b : a < 2 ^ 64 -> N.land a b < 2 ^ 64.
Proof. intros. apply lt_pow2_bits. intros i Hi. rewrite N.land_spec, (testbit_small a 64) by assumption. reflexivity. Qed.

(** single-word updates *)
Lemma mod_word_ok m n f (h : bool -> bool -> bool) nw : wfm nw m -> (n < 64 * nw)%nat ->
  (forall w, w < 2 ^ 64 -> f w < 2 ^ 64) ->
  (forall w i, (i < 64)%nat -> N.testbit (f w) (N.of_nat i) = h (i =? n mod 64)%nat (N.testbit w (N.of_nat i))) ->
  (forall b, h false b = b) ->
  exists m', mod_word m n f = Some m' /\ wfm nw m' /\ forall i, mbit m' i = if (i =? n)%nat then h true (mbit m i) else mbit m i.
Proof.
  intros [HL HF] Hn Hlt Hb Hh. unfold mod_word.
  assert (Hq : (n / 64 < length m)%nat) by (apply Nat.div_lt_upper_bound; lia).
  destruct (nth_error_lt_some m (n / 64) Hq) as [w Ew]. rewrite Ew.
  destruct (upd_some m (n / 64) (f w) Hq) as [m' Em]. exists m'. split; [exact Em|].
  assert (Hw : w < 2 ^ 64) by (rewrite Forall_forall in HF; apply HF; eapply nth_error_In; eauto).
  split.
  - split; [rewrite (upd_length _ _ _ _ Em); exact HL|].
    apply Forall_forall. intros x Hx. apply In_nth_error in Hx. destruct Hx as [k Hk].
    destruct (Nat.eq_dec (n / 64) k) as [E|E].
    + subst k. rewrite (upd_nth_eq _ _ _ _ Em) in Hk. injection Hk as <-. apply Hlt. exact Hw.
    + rewrite (upd_nth_neq _ _ _ _ _ Em E) in Hk. rewrite Forall_forall in HF. apply HF. eapply nth_error_In; eauto.
  - intro i. unfold mbit. pose proof (Nat.mod_upper_bound i 64 ltac:(lia)) as Hi.
    destruct (Nat.eq_dec (n / 64) (i / 64)) as [E|E].
    + rewrite <- E. rewrite (nth_error_nth _ _ 0 (upd_nth_eq _ _ _ _ Em)). rewrite Hb by exact Hi.
      rewrite (nth_error_nth _ _ 0 Ew).
      destruct (Nat.eqb_spec i n) as [->|Ne].
      * rewrite Nat.eqb_refl. reflexivity.
      * destruct (Nat.eqb_spec (i mod 64) (n mod 64)) as [E2|E2]; [|apply Hh].
        exfalso. apply Ne. rewrite (Nat.div_mod i 64), (Nat.div_mod n 64), E, E2 by lia. reflexivity.
    + destruct (Nat.eqb_spec i n) as [->|Ne]; [contradiction|].
      pose proof (upd_nth_neq _ _ _ (i / 64)%nat _ Em E) as G.
      f_equal. destruct (Nat.lt_ge_cases (i / 64) (length m)) as [L|L].
      * destruct (nth_error_lt_some m _ L) as [x Ex]. rewrite Ex in G.
        rewrite (nth_error_nth _ _ 0 G), (nth_error_nth _ _ 0 Ex). reflexivity.
      * rewrite !nth_overflow; [reflexivity|lia|rewrite (upd_length _ _ _ _ Em); lia].
Qed.

Lemma map_ok m f (h : bool -> bool) nw : wfm nw m -> (forall w, w < 2 ^ 64 -> f w < 2 ^ 64) ->
  (forall w i, (i < 64)%nat -> N.testbit (f w) (N.of_nat i) = h (N.testbit w (N.of_nat i))) ->
  wfm nw (map f m) /\ forall i, (i < 64 * nw)%nat -> mbit (map f m) i = h (mbit m i).
Proof.
  intros [HL HF] Hlt Hb. split.
  - split; [rewrite map_length; exact HL|]. apply Forall_map. eapply Forall_impl; [|exact HF]. cbn. auto.
  - intros i Hi. unfold mbit. assert (i / 64 < length m)%nat by (apply Nat.div_lt_upper_bound; lia).
    rewrite (nth_indep _ 0 (f 0)) by (rewrite map_length; lia). rewrite map_nth. apply Hb.
    apply Nat.mod_upper_bound. lia.
Qed.
Lemma zipw_ok f (h : bool -> bool -> bool) nw : (forall a b, a < 2 ^ 64 -> b < 2 ^ 64 -> f a b < 2 ^ 64) ->
  (forall a b i, (i < 64)%nat -> N.testbit (f a b) (N.of_nat i) = h (N.testbit a (N.of_nat i)) (N.testbit b (N.of_nat i))) ->
  forall a b, wfm nw a -> wfm nw b ->
  wfm nw (zipw f a b) /\ forall i, (i < 64 * nw)%nat -> mbit (zipw f a b) i = h (mbit a i) (mbit b i).
Proof.
  intros Hlt Hb. induction nw as [|nw IH]; intros a b Ha Hb'.
  - destruct a; [|destruct Ha; discriminate]. split; [split; [reflexivity|constructor]|]. intros; lia.
  - destruct a as [|x a]; [destruct Ha; discriminate|]. destruct b as [|y b]; [destruct Hb'; discriminate|].
    apply wfm_cons in Ha. apply wfm_cons in Hb'. destruct Ha as [Hx Ha], Hb' as [Hy Hb']. cbn [zipw].
    destruct (IH a b Ha Hb') as [I1 I2]. split; [apply wfm_cons; auto|].
    intros i Hi. rewrite !mbit_cons. destruct (Nat.ltb_spec i 64); [apply Hb; assumption|apply I2; lia].
Qed.

Lemma word_count_cover size : (size <= 64 * word_count size)%nat /\ (64 * word_count size < size + 64)%nat.
Proof. unfold word_count. pose proof (Nat.div_mod (size + 64 - 1) 64 ltac:(lia)). pose proof (Nat.mod_upper_bound (size + 64 - 1) 64 ltac:(lia)). lia. Qed.

Lemma set_all_ok m b nw : wfm nw m -> wfm nw (set_all m b) /\ forall i, (i < 64 * nw)%nat -> mbit (set_all m b) i = b.
Proof.
  intro H. apply (map_ok m (fun _ => if b then wall else 0) (fun _ => b)); auto.
  - intros. destruct b; [reflexivity|reflexivity].
  - intros w i Hi. destruct b; [apply N.ones_spec_low; lia|apply N.bits_0].
Qed.
Lemma repeat_wf n : wfm n (repeat 0 n).
Proof. split; [apply repeat_length|]. apply Forall_forall. intros x Hx. apply repeat_spec in Hx. subst. reflexivity. Qed.

(** the invariant: words well formed, bits below [lim] given by S, storage above it clear *)
Definition reps (size : nat) (m : list N) (S : nat -> bool) : Prop :=
  wfm (word_count size) m /\ forall i, mbit m i = (i <? size)%nat && S i.

Lemma reps_intro size m S : wfm (word_count size) m ->
  (forall i, (i < 64 * word_count size)%nat -> mbit m i = (i <? size)%nat && S i) -> reps size m S.
Proof.
  intros W H. split; [exact W|]. intro i. destruct (Nat.lt_ge_cases i (64 * word_count size)) as [L|L]; [apply H; exact L|].
  pose proof (word_count_cover size). rewrite mbit_out by (destruct W as [-> _]; exact L).
  destruct (Nat.ltb_spec i size); [lia|reflexivity].
Qed.

Lemma run_ok size p : in_range size p -> no_whole p \/ (size mod 64 = 0)%nat ->
  exists m, mrun size p = Some m /\ reps size m (denotes p).
Proof.
  intros R W. pose proof (word_count_cover size) as [WC1 WC2].
  assert (E64 : (size mod 64 = 0)%nat -> (size = 64 * word_count size)%nat).
  { intro Z. pose proof (Nat.div_mod size 64 ltac:(lia)). lia. }
  assert (SB : forall p n f h, (n < size)%nat ->
    (forall w, w < 2 ^ 64 -> f w < 2 ^ 64) ->
    (forall w i, (i < 64)%nat -> N.testbit (f w) (N.of_nat i) = h (i =? n mod 64)%nat (N.testbit w (N.of_nat i))) ->
    (forall b, h false b = b) ->
    (exists m, mrun size p = Some m /\ reps size m (denotes p)) ->
    exists m', bindo (mrun size p) (fun m => mod_word m n f) = Some m' /\
       reps size m' (fun i => if (i =? n)%nat then h true (denotes p i) else denotes p i)).
  { intros q n f h Hn H1 H2 H3 (m & E & WF & RB). rewrite E. cbn [bindo].
    destruct (mod_word_ok m n f h _ WF ltac:(lia) H1 H2 H3) as (m' & E' & WF' & B'). exists m'. split; [exact E'|].
    split; [exact WF'|]. intro i. rewrite B', RB.
    destruct (Nat.eqb_spec i n) as [->|Ne]; [|reflexivity]. destruct (Nat.ltb_spec n size); [reflexivity|lia]. }
  assert (BIN : forall p q f h, (forall a b, a < 2 ^ 64 -> b < 2 ^ 64 -> f a b < 2 ^ 64) ->
    (forall a b i, (i < 64)%nat -> N.testbit (f a b) (N.of_nat i) = h (N.testbit a (N.of_nat i)) (N.testbit b (N.of_nat i))) ->
    h false false = false ->
    (exists m, mrun size p = Some m /\ reps size m (denotes p)) -> (exists m, mrun size q = Some m /\ reps size m (denotes q)) ->
    exists m', bindo (mrun size p) (fun a => bindo (mrun size q) (fun b => Some (zipw f a b))) = Some m' /\
      reps size m' (fun i => h (denotes p i) (denotes q i))).
  { intros q1 q2 f h H1 H2 H3 (a & Ea & WFa & RBa) (b & Eb & WFb & RBb). rewrite Ea, Eb. cbn [bindo].
    destruct (zipw_ok f h _ H1 H2 a b WFa WFb) as [Z1 Z2]. eexists. split; [reflexivity|]. apply reps_intro; [exact Z1|].
    intros i Hi. rewrite Z2, RBa, RBb by exact Hi. destruct (i <? size)%nat; [reflexivity|exact H3]. }
  assert (WH : forall m b, wfm (word_count size) m -> b = false \/ (size mod 64 = 0)%nat -> reps size (set_all m b) (fun _ => b)).
  { intros m b WF Hb. destruct (set_all_ok m b _ WF) as [Z1 Z2]. apply reps_intro; [exact Z1|].
    intros i Hi. rewrite Z2 by exact Hi. destruct Hb as [->|Hb]; [rewrite andb_false_r; reflexivity|].
    destruct (Nat.ltb_spec i size); [reflexivity|rewrite (E64 Hb) in *; lia]. }
  induction p; cbn [in_range no_whole mrun denotes] in *.
  - eexists. split; [reflexivity|]. apply WH; [apply repeat_wf|left; reflexivity].
  - eexists. split; [reflexivity|]. apply WH; [apply repeat_wf|tauto].
  - destruct R as [R1 R2]. destruct (SB p n (fun w => N.lor w (wbit n)) orb) as (m' & E & WF & B); auto.
    + intros. apply lor_lt; [assumption|apply wbit_lt].
    + intros. rewrite N.lor_spec, wbit_bits by assumption. apply orb_comm.
    + exists m'. split; [exact E|]. split; [exact WF|]. intro i. rewrite B. destruct (i =? n)%nat; reflexivity.
  - destruct R as [R1 R2]. destruct (SB p n (fun w => N.land w (wnot 64 (wbit n))) (fun a b => negb a && b)) as (m' & E & WF & B); auto.
    + intros. apply land_lt64; assumption.
    + intros. rewrite N.land_spec, wnot_bits, wbit_bits by assumption. apply andb_comm.
    + exists m'. split; [exact E|]. split; [exact WF|]. intro i. rewrite B. destruct (i =? n)%nat; reflexivity.
  - destruct R as [R1 R2]. destruct b.
    + destruct (SB p n (fun w => N.lor w (wbit n)) orb) as (m' & E & WF & B); auto.
      * intros. apply lor_lt; [assumption|apply wbit_lt].
      * intros. rewrite N.lor_spec, wbit_bits by assumption. apply orb_comm.
      * exists m'. split; [exact E|]. split; [exact WF|]. intro i. rewrite B. destruct (i =? n)%nat; reflexivity.
    + destruct (SB p n (fun w => N.land w (wnot 64 (wbit n))) (fun a b => negb a && b)) as (m' & E & WF & B); auto.
      * intros. apply land_lt64; assumption.
      * intros. rewrite N.land_spec, wnot_bits, wbit_bits by assumption. apply andb_comm.
      * exists m'. split; [exact E|]. split; [exact WF|]. intro i. rewrite B. destruct (i =? n)%nat; reflexivity.
  - destruct R as [R1 R2]. destruct (SB p n (fun w => N.lxor w (wbit n)) xorb) as (m' & E & WF & B); auto.
    + intros. apply lxor_lt64; [assumption|apply wbit_lt].
    + intros. rewrite N.lxor_spec, wbit_bits by assumption. apply xorb_comm.
    + apply xorb_false_l.
    + exists m'. split; [exact E|]. split; [exact WF|]. intro i. rewrite B. destruct (i =? n)%nat; reflexivity.
  - destruct IHp as (m & E & WF & _); [exact R|tauto|]. rewrite E. cbn [bindo]. eexists. split; [reflexivity|]. apply WH; [exact WF|tauto].
  - destruct W as [[]|W]. destruct IHp as (m & E & WF & B); auto. rewrite E. cbn [bindo]. eexists. split; [reflexivity|].
    destruct (map_ok m (wnot 64) negb _ WF) as [Z1 Z2]; [apply wnot_lt|intros; apply wnot_bits; assumption|].
    apply reps_intro; [exact Z1|]. intros i Hi. unfold toggle_all. rewrite Z2, B by exact Hi.
    destruct (Nat.ltb_spec i size); [reflexivity|rewrite (E64 W) in *; lia].
  - destruct R as [R1 R2]. apply (BIN p1 p2 N.land andb).
    + intros; apply land_lt64; assumption.
    + intros; apply N.land_spec.
    + reflexivity.
    + apply IHp1; tauto.
    + apply IHp2; tauto.
  - destruct R as [R1 R2]. apply (BIN p1 p2 N.lor orb).
    + intros; apply lor_lt; assumption.
    + intros; apply N.lor_spec.
    + reflexivity.
    + apply IHp1; tauto.
    + apply IHp2; tauto.
  - destruct R as [R1 R2]. apply (BIN p1 p2 (fun x y => N.land x (wnot 64 y)) (fun a b => a && negb b)).
    + intros; apply land_lt64; assumption.
    + intros; rewrite N.land_spec, wnot_bits by assumption; reflexivity.
    + reflexivity.
    + apply IHp1; tauto.
    + apply IHp2; tauto.
  - destruct R as [R1 R2]. apply (BIN p1 p2 N.lxor xorb).
    + intros; apply lxor_lt64; assumption.
    + intros; apply N.lxor_spec.
    + reflexivity.
    + apply IHp1; tauto.
    + apply IHp2; tauto.
Qed.

(** ---- observers ---- *)
Lemma land_wbit_zero w n : w < 2 ^ 64 -> negb (N.land w (wbit n) =? 0) = N.testbit w (N.of_nat (n mod 64)).
Proof.
  intro Hw. pose proof (Nat.mod_upper_bound n 64 ltac:(lia)) as Hn.
  destruct (N.testbit w (N.of_nat (n mod 64))) eqn:E.
  - apply negb_true_iff, N.eqb_neq. intro Z.
    assert (G : N.testbit (N.land w (wbit n)) (N.of_nat (n mod 64)) = true) by (rewrite N.land_spec, E, wbit_bits, Nat.eqb_refl by exact Hn; reflexivity).
    rewrite Z, N.bits_0 in G. discriminate.
  - apply negb_false_iff, N.eqb_eq. apply bits_ext. intro i. rewrite N.land_spec, N.bits_0.
    destruct (Nat.lt_ge_cases i 64) as [L|L]; [|rewrite (testbit_small w 64) by (assumption || lia); reflexivity].
    rewrite wbit_bits by exact L. destruct (Nat.eqb_spec i (n mod 64)) as [->|]; [rewrite E; reflexivity|apply andb_false_r].
Qed.

Lemma isOn_ok size m S n : reps size m S -> (n < size)%nat -> isOn m n = Some (S n).
Proof.
  intros [[HL HF] HB] Hn. pose proof (word_count_cover size) as [WC1 WC2]. unfold isOn.
  assert (Hq : (n / 64 < length m)%nat) by (apply Nat.div_lt_upper_bound; lia).
  destruct (nth_error_lt_some m _ Hq) as [w Ew]. rewrite Ew. f_equal.
  rewrite land_wbit_zero by (rewrite Forall_forall in HF; apply HF; eapply nth_error_In; eauto).
  specialize (HB n). unfold mbit in HB. rewrite (nth_error_nth _ _ 0 Ew) in HB. rewrite HB.
  destruct (Nat.ltb_spec n size); [reflexivity|lia].
Qed.

Lemma mask_ext nw a b : wfm nw a -> wfm nw b -> (forall i, (i < 64 * nw)%nat -> mbit a i = mbit b i) -> a = b.
Proof.
  revert a b. induction nw as [|nw IH]; intros a b Ha Hb H.
  - destruct a; [|destruct Ha; discriminate]. destruct b; [reflexivity|destruct Hb; discriminate].
  - destruct a as [|x a]; [destruct Ha; discriminate|]. destruct b as [|y b]; [destruct Hb; discriminate|].
    apply wfm_cons in Ha. apply wfm_cons in Hb. destruct Ha as [Hx Ha], Hb as [Hy Hb]. f_equal.
    + apply bits_ext. intro i. destruct (Nat.lt_ge_cases i 64) as [L|L].
      * specialize (H i ltac:(lia)). rewrite !mbit_cons in H. destruct (Nat.ltb_spec i 64); [exact H|lia].
      * rewrite !(testbit_small _ 64) by (assumption || lia). reflexivity.
    + apply IH; auto. intros i Hi. specialize (H (i + 64)%nat ltac:(lia)). rewrite !mbit_cons in H.
      destruct (Nat.ltb_spec (i + 64) 64); [lia|]. rewrite Nat.add_sub in H. exact H.
Qed.
Lemma mask_eqb_eq a b : mask_eqb a b = true <-> a = b.
Proof.
  revert b; induction a as [|x a IH]; intros [|y b]; cbn; split; intro H; try discriminate; auto.
  - apply andb_true_iff in H. destruct H as [H1 H2]. apply N.eqb_eq in H1. apply IH in H2. congruence.
  - injection H as -> ->. rewrite N.eqb_refl. apply IH. reflexivity.
Qed.
Lemma eq_ok size a b S T : reps size a S -> reps size b T ->
  (mask_eqb a b = true <-> forall i, (i < size)%nat -> S i = T i).
Proof.
  intros [Wa Ba] [Wb Bb]. rewrite mask_eqb_eq. split.
  - intros -> i Hi. specialize (Ba i). specialize (Bb i). rewrite Ba in Bb. destruct (Nat.ltb_spec i size); [exact Bb|lia].
  - intro H. apply (mask_ext _ _ _ Wa Wb). intros i _. rewrite Ba, Bb. destruct (Nat.ltb_spec i size); [apply H; assumption|reflexivity].
Qed.

Lemma filter_ext_in' {A} (f g : A -> bool) l : (forall x, In x l -> f x = g x) -> filter f l = filter g l.
Proof. apply filter_ext_in. Qed.
Lemma card_ext S T n : (forall i, (i < n)%nat -> S i = T i) -> card S n = card T n.
Proof. intro H. unfold card. f_equal. apply filter_ext_in. intros x Hx. apply in_seq in Hx. apply H. lia. Qed.
Lemma filter_map_comm {A B} (f : A -> B) (p : B -> bool) l : filter p (map f l) = map f (filter (fun x => p (f x)) l).
Proof. induction l as [|a l IH]; cbn; [reflexivity|]. destruct (p (f a)); cbn; rewrite IH; reflexivity. Qed.
Lemma seq_shift_k k s n : seq (k + s) n = map (Nat.add k) (seq s n).
Proof. revert s; induction n; intro s; cbn; [reflexivity|]. f_equal. rewrite <- IHn. f_equal. lia. Qed.
Lemma card_split S a b : card S (a + b) = (card S a + card (fun i => S (a + i)%nat) b)%nat.
Proof.
  unfold card. rewrite seq_app, filter_app, app_length. f_equal. cbn [Nat.add].
  rewrite <- (Nat.add_0_r a) at 1. rewrite seq_shift_k, filter_map_comm, map_length. reflexivity.
Qed.
Lemma count_ones_c w : count_ones w = card (fun i => N.testbit w (N.of_nat i)) 64.
Proof. unfold count_ones, card. reflexivity. Qed.

Lemma count_ones_card w m : count_ones w = card (mbit (w :: m)) 64.
Proof.
  rewrite count_ones_c. apply card_ext. intros i Hi. rewrite mbit_cons.
  destruct (Nat.ltb_spec i 64); [reflexivity|lia].
Qed.
Lemma card_tail w m n : card (fun i => mbit (w :: m) (64 + i)) n = card (mbit m) n.
Proof. apply card_ext. intros i Hi. rewrite mbit_cons. destruct (Nat.ltb_spec (64 + i) 64); [lia|]. f_equal. lia. Qed.

Lemma countOn_acc m : forall s, fold_left (fun s w => (s + count_ones w)%nat) m s = (s + card (mbit m) (64 * length m))%nat.
Proof.
  induction m as [|w m IH]; intro s; cbn [fold_left length].
  - unfold card. cbn. lia.
  - rewrite IH. replace (64 * S (length m))%nat with (64 + 64 * length m)%nat by lia.
    rewrite card_split, card_tail, <- count_ones_card. lia.
Qed.
Lemma card_clip size S n : (size <= n)%nat -> card (fun i => (i <? size)%nat && S i) n = card S size.
Proof.
  intro H. replace n with (size + (n - size))%nat by lia. rewrite card_split.
  rewrite (card_ext _ S size).
  - replace (card (fun i => (size + i <? size)%nat && S (size + i)%nat) (n - size)) with 0%nat; [lia|].
    unfold card. rewrite (filter_ext_in _ (fun _ => false)); [induction (seq 0 (n - size)); [reflexivity|exact IHl]|].
    intros x _. destruct (Nat.ltb_spec (size + x) size); [lia|reflexivity].
  - intros i Hi. destruct (Nat.ltb_spec i size); [reflexivity|lia].
Qed.
Lemma countOn_ok size m S : reps size m S -> countOn m = card S size /\ countOff size m = Z.of_nat (card (fun i => negb (S i)) size).
Proof.
  intros [[HL HF] HB]. pose proof (word_count_cover size) as [WC1 WC2].
  assert (E : countOn m = card S size).
  { unfold countOn. rewrite countOn_acc, HL. cbn [Nat.add]. rewrite (card_ext _ (fun i => (i <? size)%nat && S i)) by (intros; apply HB).
    apply card_clip. exact WC1. }
  split; [exact E|]. unfold countOff. rewrite E.
  assert (card S size + card (fun i => negb (S i)) size = size)%nat; [|lia].
  clear. unfold card. rewrite <- (seq_length size 0) at 3. induction (seq 0 size) as [|x l IH]; [reflexivity|]. cbn [filter].
  destruct (S x); cbn [negb length]; lia.
Qed.

Lemma countOffset_loop_ok : forall n m nw k sum, wfm nw m -> (n < nw)%nat -> (k < 64)%nat ->
  forall K, (K mod 64 = k)%nat ->
  countOffset_loop m n K sum = Some (sum + card (mbit m) (64 * n + k))%nat.
Proof.
  induction n as [|n IH]; intros m nw k sum W Hn Hk K HK.
  - destruct m as [|w m]; [destruct W as [W _]; cbn in W; lia|]. cbn [countOffset_loop]. f_equal. f_equal. cbn [Nat.mul Nat.add].
    assert (Ek : wsub 64 (wbit K) 1 = N.ones (N.of_nat k)).
    { unfold wbit. rewrite HK, N.shiftl_1_l. rewrite wsub_small; [rewrite N.ones_equiv; lia| |apply pow2_lt; lia].
      pose proof (pow2_pos (N.of_nat k)). lia. }
    rewrite Ek, count_ones_c.
    rewrite (card_ext _ (fun i => (i <? k)%nat && mbit (w :: m) i)).
    + apply card_clip. lia.
    + intros i Hi. rewrite N.land_spec, mbit_cons. destruct (Nat.ltb_spec i 64); [|lia]. rewrite andb_comm. f_equal.
      destruct (Nat.ltb_spec i k); [apply N.ones_spec_low; lia|apply N.ones_spec_high; lia].
  - destruct m as [|w m]; [destruct W as [W _]; cbn in W; lia|]. cbn [countOffset_loop].
    destruct nw as [|nw]; [lia|]. apply wfm_cons in W. destruct W as [Hw W].
    rewrite (IH m nw k _ W ltac:(lia) Hk K HK). f_equal.
    replace (64 * S n + k)%nat with (64 + (64 * n + k))%nat by lia. rewrite (card_split (mbit (w :: m)) 64), card_tail, <- count_ones_card. lia.
Qed.
Lemma countOffset_ok size m S k : reps size m S -> (k <= size)%nat -> (k < 64 * word_count size)%nat -> countOffset m k = Some (card S k).
Proof.
  intros [W HB] Hk Hk2. unfold countOffset.
  rewrite (countOffset_loop_ok (k / 64) m _ (k mod 64) 0 W); [| | |reflexivity].
  - f_equal. rewrite <- (Nat.div_mod k 64) by lia. apply card_ext. intros i Hi. rewrite HB.
    destruct (Nat.ltb_spec i size); [reflexivity|lia].
  - apply Nat.div_lt_upper_bound; lia.
  - apply Nat.mod_upper_bound. lia.
Qed.

(** least element search *)
Lemma least_spec S a n : (a <= n)%nat -> let r := least_from S a n in
  (a <= r <= n)%nat /\ (forall j, (a <= j < r)%nat -> S j = false) /\ ((r < n)%nat -> S r = true).
Proof.
  intro Han. unfold least_from. cbn zeta.
  assert (G : forall c a, match find S (seq a c) with
     | Some i => (a <= i < a + c)%nat /\ (forall j, (a <= j < i)%nat -> S j = false) /\ S i = true
     | None => forall j, (a <= j < a + c)%nat -> S j = false end).
  { induction c as [|c IH]; intro b; cbn [seq find]; [intros; lia|].
    destruct (S b) eqn:E; [split; [lia|split; [intros; lia|exact E]]|].
    specialize (IH (Datatypes.S b)). destruct (find S (seq (Datatypes.S b) c)).
    - destruct IH as (H1 & H2 & H3). split; [lia|]. split; [|exact H3]. intros j Hj.
      destruct (Nat.eq_dec j b) as [->|]; [exact E|apply H2; lia].
    - intros j Hj. destruct (Nat.eq_dec j b) as [->|]; [exact E|apply IH; lia]. }
  specialize (G (n - a)%nat a). destruct (find S (seq a (n - a))).
  - destruct G as (H1 & H2 & H3). split; [lia|]. auto.
  - split; [lia|]. split; [intros; apply G; lia|lia].
Qed.
Lemma least_unique S a n r : (a <= n)%nat -> (a <= r <= n)%nat -> (forall j, (a <= j < r)%nat -> S j = false) ->
  ((r < n)%nat -> S r = true) -> r = least_from S a n.
Proof.
  intros Han H1 H2 H3. destruct (least_spec S a n Han) as (K1 & K2 & K3). set (q := least_from S a n) in *.
  destruct (Nat.lt_trichotomy r q) as [L|[E|L]]; [|exact E|].
  - rewrite K2 in H3 by lia. assert (false = true) by (apply H3; lia). discriminate.
  - rewrite H2 in K3 by lia. assert (false = true) by (apply K3; lia). discriminate.
Qed.
Lemma ctz_ok b : b < 2 ^ 64 -> b <> 0 -> (ctz64 b < 64)%nat /\ N.testbit b (N.of_nat (ctz64 b)) = true /\
  forall i, (i < ctz64 b)%nat -> N.testbit b (N.of_nat i) = false.
Proof.
  intros Hb Nz. unfold ctz64. destruct (find (fun i => N.testbit b (N.of_nat i)) (seq 0 64)) as [k|] eqn:E.
  - destruct (least_spec (fun i => N.testbit b (N.of_nat i)) 0 64 ltac:(lia)) as (K1 & K2 & K3).
    unfold least_from in *. change (64 - 0)%nat with 64%nat in *. rewrite E in *.
    apply find_some in E. destruct E as [E1 E2]. apply in_seq in E1. split; [lia|]. split; [exact E2|]. intros i Hi. apply K2. lia.
  - exfalso. apply Nz. apply bits_ext. intro i. rewrite N.bits_0. destruct (Nat.lt_ge_cases i 64).
    + apply (find_none _ _ E). apply in_seq. lia.
    + apply (testbit_small b 64); [exact Hb|lia].
Qed.

(** find_first over the tail of the mask starting at word n; [g] a bitwise map *)
Lemma find_first_ok g (h : bool -> bool) size : (forall w, w < 2 ^ 64 -> g w < 2 ^ 64) ->
  (forall w i, (i < 64)%nat -> N.testbit (g w) (N.of_nat i) = h (N.testbit w (N.of_nat i))) ->
  forall m nw n, wfm nw m ->
  (find_first g size n m = size /\ forall i, (i < 64 * nw)%nat -> h (mbit m i) = false) \/
  (exists r, find_first g size n m = (64 * n + r)%nat /\ (r < 64 * nw)%nat /\ h (mbit m r) = true /\ forall i, (i < r)%nat -> h (mbit m i) = false).
Proof.
  intros Hlt Hb. induction m as [|w m IH]; intros nw n W; cbn [find_first].
  - left. split; [reflexivity|]. destruct W as [W _]. cbn in W. intros; lia.
  - destruct nw as [|nw]; [destruct W; discriminate|]. apply wfm_cons in W. destruct W as [Hw W].
    destruct (N.eqb_spec (g w) 0) as [Z|Z].
    + assert (Z0 : forall i, (i < 64)%nat -> h (N.testbit w (N.of_nat i)) = false).
      { intros i Hi. rewrite <- Hb by exact Hi. rewrite Z. apply N.bits_0. }
      destruct (IH nw (S n) W) as [[E H]|(r & E & R1 & R2 & R3)].
      * left. split; [exact E|]. intros i Hi. rewrite mbit_cons. destruct (Nat.ltb_spec i 64); [apply Z0; assumption|apply H; lia].
      * right. exists (64 + r)%nat. split; [rewrite E; lia|]. split; [lia|]. split.
        -- rewrite mbit_cons. destruct (Nat.ltb_spec (64 + r) 64); [lia|]. replace (64 + r - 64)%nat with r by lia. exact R2.
        -- intros i Hi. rewrite mbit_cons. destruct (Nat.ltb_spec i 64); [apply Z0; assumption|apply R3; lia].
    + destruct (ctz_ok (g w) (Hlt w Hw) Z) as (C1 & C2 & C3). right. exists (ctz64 (g w)). split; [lia|]. split; [lia|]. split.
      * rewrite mbit_cons. destruct (Nat.ltb_spec (ctz64 (g w)) 64); [|lia]. rewrite <- Hb by assumption. exact C2.
      * intros i Hi. rewrite mbit_cons. destruct (Nat.ltb_spec i 64); [|lia]. rewrite <- Hb by assumption. apply C3. exact Hi.
Qed.

Lemma mbit_skipn m : forall k i, mbit (skipn k m) i = mbit m (64 * k + i).
Proof.
  intros k i. unfold mbit. rewrite nth_skipn'. replace (64 * k + i)%nat with (i + k * 64)%nat by lia.
  rewrite Nat.div_add, Nat.mod_add by lia. f_equal. f_equal. lia.
Qed.
Lemma wfm_skipn nw m k : wfm nw m -> wfm (nw - k) (skipn k m).
Proof.
  intros [H1 H2]. split; [rewrite skipn_length; lia|]. apply Forall_forall. intros x Hx. rewrite Forall_forall in H2. apply H2.
  rewrite <- (firstn_skipn k m). apply in_or_app. right; exact Hx.
Qed.

Lemma find_next_ok g (h : bool -> bool) size : (forall w, w < 2 ^ 64 -> g w < 2 ^ 64) ->
  (forall w i, (i < 64)%nat -> N.testbit (g w) (N.of_nat i) = h (N.testbit w (N.of_nat i))) ->
  forall m nw start, wfm nw m -> (start < 64 * nw)%nat ->
  (find_next g size m start = size /\ forall i, (start <= i < 64 * nw)%nat -> h (mbit m i) = false) \/
  (let r := find_next g size m start in (start <= r < 64 * nw)%nat /\ h (mbit m r) = true /\ forall i, (start <= i < r)%nat -> h (mbit m i) = false).
Proof.
  intros Hlt Hb m nw start W Hs. cbn zeta. unfold find_next.
  assert (Hq : (start / 64 < length m)%nat) by (destruct W as [-> _]; apply Nat.div_lt_upper_bound; lia).
  destruct (nth_error_lt_some m _ Hq) as [w Ew]. rewrite Ew.
  assert (Hw : w < 2 ^ 64) by (destruct W as [_ F]; rewrite Forall_forall in F; apply F; eapply nth_error_In; eauto).
  set (q := (start / 64)%nat) in *. set (k := (start mod 64)%nat).
  assert (Hk : (k < 64)%nat) by (apply Nat.mod_upper_bound; lia).
  assert (Es : (start = 64 * q + k)%nat) by (apply Nat.div_mod; lia).
  assert (MW : forall i, (i < 64)%nat -> mbit m (64 * q + i) = N.testbit w (N.of_nat i)).
  { intros i Hi. unfold mbit. replace (64 * q + i)%nat with (i + q * 64)%nat by lia. rewrite Nat.div_add, Nat.mod_add by lia.
    rewrite Nat.div_small, Nat.mod_small by assumption. cbn [Nat.add]. rewrite (nth_error_nth _ _ 0 Ew). reflexivity. }
  rewrite land_wbit_zero by (apply Hlt; exact Hw). fold k. rewrite Hb by exact Hk.
  destruct (h (N.testbit w (N.of_nat k))) eqn:E0.
  - right. split; [lia|]. split; [rewrite Es, MW by exact Hk; exact E0|]. intros; lia.
  - set (b := N.land (g w) (wshl 64 wall (N.of_nat k))).
    assert (Bb : forall i, (i < 64)%nat -> N.testbit b (N.of_nat i) = (k <=? i)%nat && h (N.testbit w (N.of_nat i))).
    { intros i Hi. unfold b. rewrite N.land_spec, Hb, wshl_bits by exact Hi. unfold wall.
      destruct (N.ltb_spec (N.of_nat i) 64); [|lia]. destruct (Nat.leb_spec k i) as [L|L].
      - destruct (N.leb_spec (N.of_nat k) (N.of_nat i)); [|lia]. rewrite N.ones_spec_low by lia. cbn [andb]. apply andb_true_r.
      - destruct (N.leb_spec (N.of_nat k) (N.of_nat i)); [lia|]. cbn [andb]. apply andb_false_r. }
    assert (Lb : b < 2 ^ 64) by (apply land_lt64, Hlt, Hw).
    assert (Hqn : (q < nw)%nat) by (apply Nat.div_lt_upper_bound; lia).
    destruct (N.eqb_spec b 0) as [Z|Z].
    + assert (Z0 : forall i, (k <= i < 64)%nat -> h (mbit m (64 * q + i)) = false).
      { intros i Hi. rewrite MW by lia. specialize (Bb i ltac:(lia)). rewrite Z, N.bits_0 in Bb.
        destruct (Nat.leb_spec k i); [|lia]. cbn in Bb. congruence. }
      destruct (find_first_ok g h size Hlt Hb (skipn (S q) m) (nw - S q) (S q) (wfm_skipn _ _ _ W)) as [[E H]|(r & E & R1 & R2 & R3)].
      * left. split; [exact E|]. intros i Hi. destruct (Nat.lt_ge_cases i (64 * S q)) as [L|L].
        -- replace i with (64 * q + (i - 64 * q))%nat by lia. apply Z0. lia.
        -- replace i with (64 * S q + (i - 64 * S q))%nat by lia. rewrite <- mbit_skipn. apply H. lia.
      * right. rewrite E. split; [lia|]. split; [rewrite <- mbit_skipn; exact R2|]. intros i Hi.
        destruct (Nat.lt_ge_cases i (64 * S q)) as [L|L].
        -- replace i with (64 * q + (i - 64 * q))%nat by lia. apply Z0. lia.
        -- replace i with (64 * S q + (i - 64 * S q))%nat by lia. rewrite <- mbit_skipn. apply R3. lia.
    + destruct (ctz_ok b Lb Z) as (C1 & C2 & C3). rewrite Bb in C2 by exact C1. apply andb_true_iff in C2. destruct C2 as [C2 C2'].
      apply Nat.leb_le in C2. right. replace (q * 64 + ctz64 b)%nat with (64 * q + ctz64 b)%nat by lia.
      split; [lia|]. split; [rewrite MW by exact C1; exact C2'|]. intros i Hi.
      replace i with (64 * q + (i - 64 * q))%nat by lia. rewrite MW by lia. specialize (C3 (i - 64 * q)%nat ltac:(lia)).
      rewrite Bb in C3 by lia. destruct (Nat.leb_spec k (i - 64 * q)); [exact C3|lia].
Qed.

Lemma id_lt w : w < 2 ^ 64 -> (fun w => w) w < 2 ^ 64. Proof. auto. Qed.

Lemma findOn_ok size m S : reps size m S -> findFirstOn size m = least_from S 0 size /\
  forall start, (start < size)%nat -> findNextOn size m start = least_from S start size.
Proof.
  intros [W HB]. pose proof (word_count_cover size) as [WC1 WC2]. split.
  - unfold findFirstOn. destruct (find_first_ok (fun w => w) (fun b => b) size (fun _ H => H) (fun _ _ _ => eq_refl) m _ 0 W) as [[E H]|(r & E & R1 & R2 & R3)]; rewrite E.
    + apply least_unique; try lia. intros j Hj. specialize (H j ltac:(lia)). rewrite HB in H. destruct (Nat.ltb_spec j size); [exact H|lia].
    + rewrite HB in R2. apply andb_true_iff in R2. destruct R2 as [L R2]. apply Nat.ltb_lt in L. apply least_unique; [lia|lia| |auto].
      intros j Hj. specialize (R3 j ltac:(lia)). rewrite HB in R3. destruct (Nat.ltb_spec j size); [exact R3|lia].
  - intros start Hs. unfold findNextOn.
    destruct (find_next_ok (fun w => w) (fun b => b) size (fun _ H => H) (fun _ _ _ => eq_refl) m _ start W ltac:(lia)) as [[E H]|(R1 & R2 & R3)].
    + rewrite E. apply least_unique; try lia. intros j Hj. specialize (H j ltac:(lia)). rewrite HB in H. destruct (Nat.ltb_spec j size); [exact H|lia].
    + set (r := find_next _ _ _ _) in *. rewrite HB in R2. apply andb_true_iff in R2. destruct R2 as [L R2]. apply Nat.ltb_lt in L. apply least_unique; [lia|lia| |auto].
      intros j Hj. specialize (R3 j ltac:(lia)). rewrite HB in R3. destruct (Nat.ltb_spec j size); [exact R3|lia].
Qed.
Lemma findOff_ok size m S : reps size m S -> findFirstOff size m = least_from (fun i => negb (S i)) 0 size /\
  forall start, (start < size)%nat -> findNextOff size m start = least_from (fun i => negb (S i)) start size.
Proof.
  intros [W HB]. pose proof (word_count_cover size) as [WC1 WC2].
  assert (FF := find_first_ok (wnot 64) negb size wnot_lt wnot_bits m _ 0 W).
  assert (FN := fun start => find_next_ok (wnot 64) negb size wnot_lt wnot_bits m _ start W).
  assert (PAD : forall i, (size <= i)%nat -> negb (mbit m i) = true).
  { intros i Hi. rewrite HB. destruct (Nat.ltb_spec i size); [lia|reflexivity]. }
  assert (INS : forall i, (i < size)%nat -> mbit m i = S i).
  { intros i Hi. rewrite HB. destruct (Nat.ltb_spec i size); [reflexivity|lia]. }
  split.
  - unfold findFirstOff. destruct FF as [[E H]|(r & E & R1 & R2 & R3)]; rewrite E.
    + apply least_unique; try lia. intros j Hj. rewrite <- INS by lia. apply H. lia.
    + assert (r <= size)%nat.
      { destruct (Nat.le_gt_cases r size); [assumption|]. specialize (R3 size ltac:(lia)). rewrite PAD in R3 by lia. discriminate. }
      apply least_unique; try lia.
      * intros j Hj. rewrite <- INS by lia. apply R3. lia.
      * intro L. rewrite <- INS by lia. exact R2.
  - intros start Hs. specialize (FN start ltac:(lia)). unfold findNextOff.
    destruct FN as [[E H]|(R1 & R2 & R3)].
    + rewrite E. apply least_unique; try lia. intros j Hj. rewrite <- INS by lia. apply H. lia.
    + set (r := find_next _ _ _ _) in *. assert (r <= size)%nat.
      { destruct (Nat.le_gt_cases r size); [assumption|]. specialize (R3 size ltac:(lia)). rewrite PAD in R3 by lia. discriminate. }
      apply least_unique; try lia.
      * intros j Hj. rewrite <- INS by lia. apply R3. lia.
      * intro L. rewrite <- INS by lia. exact R2.
Qed.

Lemma allOff_ok size m S : reps size m S -> (allOff m = true <-> forall i, (i < size)%nat -> S i = false).
Proof.
  intros [W HB]. unfold allOff. rewrite forallb_forall. pose proof (word_count_cover size) as [WC1 WC2]. split.
  - intros H i Hi. specialize (HB i). destruct (Nat.ltb_spec i size); [|lia]. cbn in HB. rewrite <- HB.
    unfold mbit. assert (i / 64 < length m)%nat by (destruct W as [-> _]; apply Nat.div_lt_upper_bound; lia).
    specialize (H (nth (i / 64) m 0) (nth_In _ _ H1)). apply N.eqb_eq in H. rewrite H. apply N.bits_0.
  - intros H. assert (E : m = set_all m false).
    { destruct (set_all_ok m false _ W) as [Z1 Z2]. apply (mask_ext _ _ _ W Z1). intros i Hi. rewrite Z2, HB by exact Hi.
      destruct (Nat.ltb_spec i size); [apply H; assumption|reflexivity]. }
    intros x Hx. rewrite E in Hx. apply in_map_iff in Hx. destruct Hx as (y & <- & _). reflexivity.
Qed.
Lemma allOn_ok size m S : (size mod 64 = 0)%nat -> reps size m S -> (allOn m = true <-> forall i, (i < size)%nat -> S i = true).
Proof.
  intros M0 [W HB]. unfold allOn. rewrite forallb_forall. pose proof (word_count_cover size) as [WC1 WC2].
  assert (E64 : (size = 64 * word_count size)%nat) by (pose proof (Nat.div_mod size 64 ltac:(lia)); lia). split.
  - intros H i Hi. specialize (HB i). destruct (Nat.ltb_spec i size); [|lia]. cbn in HB. rewrite <- HB.
    unfold mbit. assert (i / 64 < length m)%nat by (destruct W as [-> _]; apply Nat.div_lt_upper_bound; lia).
    specialize (H (nth (i / 64) m 0) (nth_In _ _ H1)). apply N.eqb_eq in H. rewrite H. apply N.ones_spec_low.
    pose proof (Nat.mod_upper_bound i 64). lia.
  - intros H. assert (E : m = set_all m true).
    { destruct (set_all_ok m true _ W) as [Z1 Z2]. apply (mask_ext _ _ _ W Z1). intros i Hi. rewrite Z2, HB by exact Hi.
      destruct (Nat.ltb_spec i size); [apply H; assumption|lia]. }
    intros x Hx. rewrite E in Hx. apply in_map_iff in Hx. destruct Hx as (y & <- & _). apply N.eqb_refl.
Qed.
Lemma isConstant_ok size m S : (size mod 64 = 0)%nat -> (0 < size)%nat -> reps size m S ->
  forall b, isConstant m = Some b <-> forall i, (i < size)%nat -> S i = b.
Proof.
  intros M0 Hp R b. pose proof (allOff_ok size m S R) as A0. pose proof (allOn_ok size m S M0 R) as A1.
  destruct R as [W HB]. pose proof (word_count_cover size) as [WC1 WC2]. destruct m as [|w m]; [destruct W as [W _]; cbn [length] in W; lia|].
  unfold isConstant. cbn [hd tl]. unfold allOff, allOn in *. cbn [forallb] in A0, A1.
  assert (Nw : wall =? 0 = false) by reflexivity.
  destruct (N.eqb_spec w wall) as [->|Nw1].
  - rewrite Nw in A0. cbn [andb negb] in *. destruct (forallb (fun w => w =? wall) m) eqn:E.
    + destruct A1 as [A1 _]. specialize (A1 eq_refl). split.
      * intro H. injection H as <-. exact A1.
      * intro H. rewrite <- (H 0%nat) by lia. rewrite A1 by lia. reflexivity.
    + split; [discriminate|]. intro H. destruct b.
      * destruct A1 as [_ A1]. specialize (A1 H). discriminate.
      * destruct A0 as [_ A0]. specialize (A0 H). discriminate.
  - destruct (N.eqb_spec w 0) as [->|N0]; cbn [andb negb] in *.
    + destruct (forallb (fun w => w =? 0) m) eqn:E.
      * destruct A0 as [A0 _]. specialize (A0 eq_refl). split.
        -- intro H. injection H as <-. exact A0.
        -- intro H. rewrite <- (H 0%nat) by lia. rewrite A0 by lia. reflexivity.
      * split; [discriminate|]. intro H. destruct b.
        -- destruct A1 as [_ A1]. specialize (A1 H). discriminate.
        -- destruct A0 as [_ A0]. specialize (A0 H). discriminate.
    + split; [discriminate|]. intro H. destruct b.
      * destruct A1 as [_ A1]. specialize (A1 H). discriminate.
      * destruct A0 as [_ A0]. specialize (A0 H). discriminate.
Qed.

(** everything together *)
Lemma mask_all size p : in_range size p -> no_whole p \/ (size mod 64 = 0)%nat ->
  exists m, mrun size p = Some m /\
   (forall i, (i < size)%nat -> isOn m i = Some (denotes p i)) /\
   countOn m = card (denotes p) size /\
   countOff size m = Z.of_nat (card (fun i => negb (denotes p i)) size) /\
   (forall k, (k <= size)%nat -> (k < 64 * word_count size)%nat -> countOffset m k = Some (card (denotes p) k)) /\
   findFirstOn size m = least_from (denotes p) 0 size /\
   findFirstOff size m = least_from (fun i => negb (denotes p i)) 0 size /\
   (forall s, (s < size)%nat -> findNextOn size m s = least_from (denotes p) s size) /\
   (forall s, (s < size)%nat -> findNextOff size m s = least_from (fun i => negb (denotes p i)) s size) /\
   (allOff m = true <-> forall i, (i < size)%nat -> denotes p i = false) /\
   (forall q m', in_range size q -> no_whole q \/ (size mod 64 = 0)%nat -> mrun size q = Some m' ->
      (mask_eqb m m' = true <-> forall i, (i < size)%nat -> denotes p i = denotes q i)).
Proof.
  intros R W. destruct (run_ok size p R W) as (m & E & RP). exists m. split; [exact E|].
  split; [intros; eapply isOn_ok; eauto|]. split; [apply (countOn_ok size m _ RP)|]. split; [apply (countOn_ok size m _ RP)|].
  split; [intros; eapply countOffset_ok; eauto|]. split; [apply (findOn_ok _ _ _ RP)|]. split; [apply (findOff_ok _ _ _ RP)|].
  split; [apply (findOn_ok _ _ _ RP)|]. split; [apply (findOff_ok _ _ _ RP)|]. split; [apply allOff_ok; exact RP|].
  intros q m' Rq Wq Eq. destruct (run_ok size q Rq Wq) as (m2 & E2 & RP2). rewrite Eq in E2. injection E2 as ->.
  apply eq_ok; assumption.
Qed.
Lemma mask_whole size p : in_range size p -> (size mod 64 = 0)%nat -> (0 < size)%nat ->
  exists m, mrun size p = Some m /\
   (allOn m = true <-> forall i, (i < size)%nat -> denotes p i = true) /\
   (forall b, isConstant m = Some b <-> forall i, (i < size)%nat -> denotes p i = b).
Proof.
  intros R W Hp. destruct (run_ok size p R (or_intror W)) as (m & E & RP). exists m. split; [exact E|].
  split; [apply allOn_ok; assumption|apply isConstant_ok; assumption].
Qed.
