(** SpatialHash: the table, the items, the queries. *)
From Verif Require Import Prelude SortModel RadixModel CountModel CountProofs BhtModel BhtSpec BhtProps ShModel ShSpec ShProofs.
Local Open Scope nat_scope.

Lemma count_occ_perm {A} (dec : forall a b : A, {a = b} + {a <> b}) l r x : Permutation l r -> count_occ dec l x = count_occ dec r x.
Proof. induction 1; cbn; auto; [destruct (dec x0 x); auto|destruct (dec y x), (dec x0 x); auto|congruence]. Qed.
Lemma nodup_count {A} (dec : forall a b : A, {a = b} + {a <> b}) l x : NoDup l -> count_occ dec l x = if in_dec dec x l then 1 else 0.
Proof.
  intro N. destruct (in_dec dec x l) as [I|I]; [|apply count_occ_not_In; auto]. apply NoDup_count_occ' with (decA := dec); auto.
Qed.
Lemma count_concat {A C} (dec : forall a b : A, {a = b} + {a <> b}) (f : C -> list A) l x : count_occ dec (flat_map f l) x = list_sum (map (fun c => count_occ dec (f c) x) l).
Proof. induction l as [|c l IH]; [reflexivity|]. cbn. rewrite count_occ_app, IH. reflexivity. Qed.
Lemma sum_filter {C} (p : C -> bool) l : list_sum (map (fun c => if p c then 1 else 0) l) = length (filter p l).
Proof. induction l as [|c l IH]; [reflexivity|]. cbn [map filter]. destruct (p c); cbn; rewrite <- IH; reflexivity. Qed.

Definition peq : forall a b : nat * nat, {a = b} + {a <> b}.
Proof. intros. decide equality; apply Nat.eq_dec. Defined.
Definition ieq : forall a b : cell * nat, {a = b} + {a <> b}.
Proof. intros. decide equality; [apply Nat.eq_dec|apply ceq]. Defined.
Lemma count_segment o k i : count_occ Nat.eq_dec (map snd (filter (fun x => fst x =? k) o)) i = count_occ peq o (k, i).
Proof.
  induction o as [|[a b] o IH]; [reflexivity|]. cbn [filter fst].
  cbn [count_occ]. destruct (Nat.eqb_spec a k) as [->|Ne]; cbn [map snd count_occ].
  - destruct (peq (k, b) (k, i)) as [E|E], (Nat.eq_dec b i) as [E'|E']; try congruence.
  - destruct (peq (a, b) (k, i)) as [E|E]; [congruence|exact IH].
Qed.

Section Items.
Lemma in_items_gen (css : list (list cell)) : forall j c i, In (c, i) (flat_map (fun p : nat * list cell => map (fun c => (c, fst p)) (snd p)) (combine (seq j (length css)) css)) <-> j <= i /\ exists cs, nth_error css (i - j) = Some cs /\ In c cs.
Proof.
  induction css as [|cs css IH]; intros j c i; cbn [length seq combine flat_map].
  - split; [intros []|intros (_ & cs & E & _); destruct (i - j); discriminate].
  - rewrite in_app_iff, IH, in_map_iff. cbn [fst snd]. split.
    + intros [(x & E & I)|(L & cs' & E & I)]; [inversion E; subst; split; [lia|]; exists cs; rewrite Nat.sub_diag; auto|].
      split; [lia|]. exists cs'. replace (i - j) with (S (i - S j)) by lia. auto.
    + intros (L & cs' & E & I). destruct (Nat.eq_dec i j) as [->|Ne]; [left; rewrite Nat.sub_diag in E; cbn in E; inversion E; subst; exists c; auto|].
      right. split; [lia|]. exists cs'. replace (i - j) with (S (i - S j)) in E by lia. auto.
Qed.
Lemma in_items css c i : In (c, i) (items css) <-> exists cs, nth_error css i = Some cs /\ In c cs.
Proof. unfold items. rewrite in_items_gen, Nat.sub_0_r. split; [intros (_ & H); auto|intro H; split; [lia|auto]]. Qed.
Lemma NoDup_app2 {A} (l r : list A) : NoDup l -> NoDup r -> (forall x, In x l -> ~ In x r) -> NoDup (l ++ r).
Proof.
  induction 1 as [|x l N D IH]; intros R H; auto. cbn. constructor; [rewrite in_app_iff; intros [Q|Q]; [auto|apply (H x); [left; auto|auto]]|].
  apply IH; auto. intros y Y. apply H. right; auto.
Qed.
Lemma items_nodup_gen (css : list (list cell)) : Forall (@NoDup cell) css -> forall j, NoDup (flat_map (fun p : nat * list cell => map (fun c => (c, fst p)) (snd p)) (combine (seq j (length css)) css)).
Proof.
  induction 1 as [|cs css N F IH]; intro j; cbn [length seq combine flat_map]; [constructor|]. cbn [fst snd]. apply NoDup_app2; auto.
  - apply NoDup_map_on; auto. intros a b _ _ E. congruence.
  - intros [c i] I. apply in_map_iff in I as (x & E & _). inversion E; subst. rewrite in_items_gen. lia.
Qed.
Lemma items_nodup css : Forall (@NoDup cell) css -> NoDup (items css).
Proof. intro F. apply items_nodup_gen; auto. Qed.
End Items.

Section P.
Variable sent : cell.
Variable h : nat -> cell -> nat.
Variable B : nat.
Variable W : Z.
Hypothesis HB : 3 <= B.
Hypothesis HW : (64 <= W)%Z.
Notation reach := (reach ceq sent h B W).
Notation dictionary := (dictionary ceq sent h B).
Notation insert_run := (insert_run sent h B W).
Notation trial := (trial sent h B W).

Lemma table_size_pos e : 0 < e -> table_size B e <> 0.
Proof using HB. intro H. unfold table_size. destruct (Nat.eqb_spec e 0); [lia|]. assert (M : (pow2_ge e * 2) mod B < B) by (apply Nat.mod_upper_bound; lia). lia. Qed.
Lemma progs_sent cells (progs : list (list cell)) : Forall (fun c => c <> sent) cells -> Permutation (concat progs) cells -> Forall (Forall (fun k => k <> sent)) progs.
Proof using HB HW.
  intros F P. apply Forall_forall. intros l L. apply Forall_forall. intros c C. rewrite Forall_forall in F. apply F. apply (Permutation_in _ P). apply in_concat. exists l; auto.
Qed.
Lemma insert_ok t cells t' ks : Forall (fun c => c <> sent) cells -> reach t -> (Z.of_nat (tsize t) <= W)%Z -> dictionary t ks -> (forall c, In c ks -> In c cells) -> insert_run t cells t' ->
  exists ks', dictionary t' ks' /\ (forall c, In c ks' -> In c cells) /\ (tsize t <> 0 -> succ t' = true -> forall c, In c cells -> In c ks').
Proof using HB HW.
  intros F R Lt D Sub (progs & n & s & P & St & Fi & ->).
  destruct (C27_insertion_numbers_each_key_once cell ceq sent h B W HB HW t ks progs n s R Lt D (progs_sent _ _ F P) St Fi) as (_ & _ & new & D' & N & _ & O & NF).
  exists (ks ++ new). split; [exact D'|]. split.
  - intros c C. apply in_app_iff in C as [C|C]; [auto|]. apply N in C. apply (Permutation_in _ P); auto.
  - intros T S' c C. destruct NF as [G _].
    + intros o r I E. subst r. destruct (O _ _ I) as [(E & _)|[(E & _)|(_ & [E|(E & _)])]]; [| |contradiction|congruence]; unfold failure in E; pose proof (Z.div_le_lower_bound W 2 32 ltac:(lia) ltac:(lia)); lia.
    + apply G. apply (Permutation_in _ (Permutation_sym P)); auto.
Qed.
Lemma insert_reach t cells t' : Forall (fun c => c <> sent) cells -> reach t -> insert_run t cells t' -> reach t'.
Proof using HB HW. intros F R (progs & n & s & P & St & Fi & ->). apply (R_insert ceq sent h B W t progs n s R); auto. eapply progs_sent; eauto. Qed.
Lemma insert_size t cells t' : Forall (fun c => c <> sent) cells -> reach t -> insert_run t cells t' -> tsize t' = tsize t.
Proof using HB HW.
  intros F R (progs & n & s & P & St & Fi & ->). destruct (BhtProofs4.reach_inv ceq sent h B W HB ltac:(lia) t R) as [own I].
  assert (S0 : BhtProofs3.sinv sent h B W true own t (start t (map (map plain) progs))) by (apply BhtProofs3.sinv_start; [auto|apply BhtProofs4.plain_ops; eapply progs_sent; eauto]).
  assert (S1 : BhtProofs3.sinv sent h B W true own t s) by (eapply BhtProofs3.sinv_steps; eauto; lia). destruct S1 as (G & _). apply G.
Qed.
Lemma trial_ok cells t : Forall (fun c => c <> sent) cells -> trial cells t -> reach t /\ tsize t <> 0 /\
  ((Z.of_nat (tsize t) <= W)%Z -> exists ks, dictionary t ks /\ forall c, In c ks -> In c cells).
Proof using HB HW.
  intros F T. induction T as [t e He Fr|t t1 c t2 progs n s T IH I1 S1 G P St Fi NF|t t1 c T IH I1 S1 L].
  - assert (R : reach t) by (eapply R_new; eauto). split; [exact R|]. split; [destruct Fr as [-> _]; apply table_size_pos; auto|]. intros _.
    exists []. split; [|intros c []]. pose proof (reach_dictionary cell ceq sent h B W HB ltac:(lia) t R) as D. destruct Fr as (_ & _ & _ & _ & E & _). rewrite E in D. exact D.
  - destruct IH as (R & T0 & Dk). pose proof (insert_reach _ _ _ F R I1) as R1. pose proof (insert_size _ _ _ F R I1) as E1.
    assert (R' : reach (tab s)) by (eapply R_resize; eauto). pose proof (reach_dictionary cell ceq sent h B W HB ltac:(lia) t1 R1) as D1.
    destruct (C29_resize_keeps_dictionary_partial cell ceq sent h B W HB ltac:(lia) t1 _ t2 c progs n s R1 D1 G P St) as (_ & _ & K). destruct (K Fi NF) as (D2 & E2).
    pose proof G as (Lt & _). split; [exact R'|]. split; [lia|]. intro Lw. destruct (Dk ltac:(lia)) as (ks & D & Sub).
    destruct (insert_ok t cells t1 ks F R ltac:(lia) D Sub I1) as (ks' & D' & Sub' & _).
    destruct (C29_resize_keeps_dictionary_partial cell ceq sent h B W HB ltac:(lia) t1 _ t2 c progs n s R1 D' G P St) as (_ & _ & K'). exists ks'. split; [apply K'; auto|auto].
  - destruct IH as (R & T0 & Dk). pose proof (insert_reach _ _ _ F R I1) as R1. pose proof (insert_size _ _ _ F R I1) as E1. split; [exact R1|]. split; [lia|].
    intro Lw. destruct (Dk ltac:(lia)) as (ks & D & Sub). destruct (insert_ok t cells t1 ks F R ltac:(lia) D Sub I1) as (ks' & D' & Sub' & _). eauto.
Qed.
Lemma table_ok cells t : Forall (fun c => c <> sent) cells -> table_run sent h B W cells t -> exists ks, dictionary t ks /\ forall c, In c ks <-> In c cells.
Proof using HB HW.
  intros F (t0 & T & I & S' & Lw). destruct (trial_ok _ _ F T) as (R & T0 & Dk). pose proof (insert_size _ _ _ F R I) as E.
  destruct (Dk ltac:(lia)) as (ks & D & Sub). destruct (insert_ok t0 cells t ks F R ltac:(lia) D Sub I) as (ks' & D' & Sub' & All). exists ks'. split; [exact D'|].
  intro c. split; auto.
Qed.

(** an item and its number *)
Lemma cno_ok t ks c : dictionary t ks -> In c ks -> exists k, cno h B t c = Some k /\ nth_error ks k = Some c.
Proof using HB HW.
  intros (_ & _ & _ & _ & Q & _) I. apply In_nth_error in I as [k K]. exists k. split; [|exact K]. unfold cno. rewrite (Q c (Z.of_nat k)).
  - destruct (Z.ltb_spec (Z.of_nat k) 0); [lia|]. rewrite Nat2Z.id. reflexivity.
  - split; [lia|]. rewrite Nat2Z.id. exact K.
Qed.
Lemma resolve_ok t ks : dictionary t ks -> forall its, (forall c i, In (c, i) its -> In c ks) ->
  exists l, resolve h B t its = Some l /\ (forall k i, In (k, i) l -> k < length ks) /\
    forall k c i, nth_error ks k = Some c -> count_occ peq l (k, i) = count_occ ieq its (c, i).
Proof using HB HW.
  intro D. pose proof D as (ND & _). induction its as [|[c i] its IH]; intro H.
  - exists []. split; [reflexivity|]. split; [intros k i []|auto].
  - destruct IH as (l & E & Lk & C); [intros; eapply H; right; eauto|]. destruct (cno_ok t ks c D) as (k & K & N); [eapply H; left; eauto|].
    exists ((k, i) :: l). cbn [resolve]. rewrite K. cbn [bind]. rewrite E. cbn [bind]. split; [reflexivity|]. split.
    + intros k' i' [Q|Q]; [inversion Q; subst; eapply nth_error_some_lt; eauto|eauto].
    + intros k' c' i' N'. cbn [count_occ]. specialize (C k' c' i' N').
      destruct (peq (k, i) (k', i')) as [Q|Q], (ieq (c, i) (c', i')) as [R|R]; try congruence; exfalso.
      inversion R; subst. apply Q. f_equal. eapply NoDup_nth_error; eauto; [eapply nth_error_some_lt; eauto|congruence].
Qed.

(** after build: what is reported for a cell *)
Definition tells (dx : Z) (prims : list box) (c : cell) (a : list nat) : Prop :=
  forall i, (forall b, nth_error prims i = Some b -> covers dx b c -> count_occ Nat.eq_dec a i = 1) /\
            ((forall b, nth_error prims i = Some b -> ~ covers dx b c) -> count_occ Nat.eq_dec a i = 0).
Lemma Forall2_nth {X Y} (R : X -> Y -> Prop) l r : Forall2 R l r -> forall i, (forall x, nth_error l i = Some x -> exists y, nth_error r i = Some y /\ R x y) /\ (forall y, nth_error r i = Some y -> exists x, nth_error l i = Some x /\ R x y).
Proof using HB HW. induction 1; intros [|i]; cbn; try (split; intros ? E; discriminate); [split; intros ? E; inversion E; subst; eauto|apply IHForall2]. Qed.
Lemma build_ok d dx s prims r : (0 < d) -> (0 < dx)%Z -> prims <> [] -> Forall (box_ok d) prims -> build_run sent h B W s dx prims r ->
  (forall b, In b prims -> ~ covers dx b sent) ->
  exists s', r = Some s' /\ sdx s' = dx /\ (exists L, NoDup L /\ (forall c, In c L <-> exists b, In b prims /\ covers dx b c) /\ BhtModel.cnt (stab s') = length L) /\
    forall c, c <> sent -> exists a, report h B s' c = Some a /\ tells dx prims c a.
Proof using HB HW.
  intros Hd Hdx Np Ok [[E _]|(_ & css & t & F2 & T & M)] Ns; [contradiction|].
  assert (CN : forall i cs, nth_error css i = Some cs -> exists b, nth_error prims i = Some b /\ NoDup cs /\ forall c, In c cs <-> covers dx b c).
  { intros i cs Ec. apply (proj2 (Forall2_nth _ _ _ F2 i)) in Ec as (b & Eb & R). exists b. split; [exact Eb|]. rewrite Forall_forall in Ok.
    destruct (cells_ok dx Hdx d b Hd (Ok b (nth_error_In _ _ Eb))) as (l & _ & U & N & I). rewrite (U cs R). auto. }
  assert (CB : forall i b, nth_error prims i = Some b -> exists cs, nth_error css i = Some cs /\ NoDup cs /\ forall c, In c cs <-> covers dx b c).
  { intros i b Eb. pose proof (proj1 (Forall2_nth _ _ _ F2 i) b Eb) as (cs & Ec & _). destruct (CN i cs Ec) as (b' & Eb' & R). assert (b' = b) by congruence. subst. eauto. }
  assert (AllC : forall c, In c (concat css) <-> exists b, In b prims /\ covers dx b c).
  { intro c. rewrite in_concat. split.
    - intros (cs & I & C). apply In_nth_error in I as [i I]. destruct (CN i cs I) as (b & Eb & _ & R). exists b. split; [eapply nth_error_In; eauto|apply R; auto].
    - intros (b & I & C). apply In_nth_error in I as [i I]. destruct (CB i b I) as (cs & Ec & _ & R). exists cs. split; [eapply nth_error_In; eauto|apply R; auto]. }
  assert (Fs : Forall (fun c => c <> sent) (concat css)).
  { apply Forall_forall. intros c C E. subst c. apply AllC in C as (b & I & C). eapply Ns; eauto. }
  destruct (table_ok _ _ Fs T) as (ks & D & Ik).
  destruct (resolve_ok t ks D (items css)) as (its & Er & Lk & Ct).
  { intros c i I. apply in_items in I as (cs & Ec & C). apply Ik. apply in_concat. exists cs. split; [eapply nth_error_In; eauto|auto]. }
  rewrite Er in M. destruct M as (p & Pr & ->). pose proof D as (ND & _ & Lc & _ & Q1 & Q2). rewrite Lc in Pr.
  destruct (place_ok (length ks) its p) as (offs & inds & o & -> & Po & Lo & -> & Co); [intros [k i] I; eapply Lk; eauto|exact Pr|].
  cbn [bind]. eexists. split; [reflexivity|]. split; [reflexivity|]. cbn [stab]. split.
  { exists ks. split; [exact ND|]. split; [intro c; rewrite Ik; apply AllC|exact Lc]. }
  assert (NI : NoDup (items css)) by (apply items_nodup; apply Forall_forall; intros cs I; apply In_nth_error in I as [i I]; destruct (CN i cs I) as (_ & _ & N & _); auto).
  intros c Nc. unfold report. cbn [stab soffs sinds]. destruct (in_dec ceq c ks) as [I|I].
  - apply In_nth_error in I as [k K]. rewrite (Q1 c (Z.of_nat k)) by (split; [lia|rewrite Nat2Z.id; exact K]). destruct (Z.ltb_spec (Z.of_nat k) 0); [lia|]. rewrite !Nat2Z.id.
    assert (Sx : forall x : nat * nat, In x o -> fst x < length ks) by (intros [k' i'] X; apply (Permutation_in _ Po) in X; eapply Lk; eauto).
    rewrite (read_segment (length ks) o k offs _ (nth_error_some_lt _ _ _ K) Sx eq_refl Co).
    eexists. split; [reflexivity|]. intro i. rewrite count_segment, (count_occ_perm peq _ _ _ Po), (Ct k c i K), (nodup_count ieq _ _ NI).
    destruct (in_dec ieq (c, i) (items css)) as [X|X]; split; auto.
    + intro H0. apply in_items in X as (cs & Ec & C). destruct (CN i cs Ec) as (b & Eb & _ & R). exfalso. apply (H0 b Eb). apply R. auto.
    + intros b Eb C. exfalso. apply X. apply in_items. destruct (CB i b Eb) as (cs & Ec & _ & R). exists cs. split; [auto|apply R; auto].
  - rewrite (Q2 c Nc I). cbn. eexists. split; [reflexivity|]. intro i. split; auto. intros b Eb C. exfalso. apply I. apply Ik. apply AllC. exists b. split; [eapply nth_error_In; eauto|auto].
Qed.
Lemma reports_ok dx prims s' : (forall c, c <> sent -> exists a, report h B s' c = Some a /\ tells dx prims c a) -> forall l, ~ In sent l ->
  exists out, reports h B s' l = Some out /\
    (forall i, nth_error prims i = None -> ~ In i out) /\
    forall i b, nth_error prims i = Some b -> forall (p : cell -> bool), (forall c, p c = true <-> covers dx b c) -> count_occ Nat.eq_dec out i = length (filter p l).
Proof using HB HW.
  intros H. induction l as [|c l IH]; intro N.
  - exists []. split; [reflexivity|]. split; [auto|reflexivity].
  - destruct IH as (out & E & O & C); [intro X; apply N; right; auto|]. destruct (H c) as (a & Ea & Ta); [intro X; apply N; left; auto|].
    exists (a ++ out). cbn [reports]. rewrite Ea. cbn [bind]. rewrite E. cbn [bind]. split; [reflexivity|]. split.
    + intros i Ei X. apply in_app_iff in X as [X|X]; [|eapply O; eauto]. destruct (Ta i) as [_ T0]. apply (count_occ_In Nat.eq_dec) in X. rewrite T0 in X; [lia|]. intros; congruence.
    + intros i b Eb p P. rewrite count_occ_app, (C i b Eb p P). cbn [filter]. destruct (Ta i) as [T1 T0]. destruct (p c) eqn:Pc.
      * rewrite (T1 b Eb) by (apply P; auto). reflexivity.
      * rewrite T0; [reflexivity|]. intros b' Eb' X. assert (b' = b) by congruence. subst. apply P in X. congruence.
Qed.
End P.
