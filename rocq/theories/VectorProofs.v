From Verif Require Import Prelude UptrModel UptrProofs VectorModel VectorSpec.

Section P.
Context {A : Type}.
Notation vec := (vec A).
Implicit Types (v : vec) (l : @sq A).

Lemma copy_n_ok (src : list (option A)) : forall n s d dst, s + n <= length src -> d + n <= length dst ->
  exists c, copy_n src dst s d n = Some c /\ length c = length dst /\
  forall i, nth_error c i = if (d <=? i) && (i <? d + n) then nth_error src (s + (i - d)) else nth_error dst i.
Proof.
  induction n as [|n IH]; intros s d dst Hs Hd; cbn [copy_n].
  - exists dst. split; [reflexivity|]. split; [reflexivity|]. intro i. destruct (Nat.leb_spec d i), (Nat.ltb_spec i (d + 0)); try reflexivity; lia.
  - destruct (nth_error_lt_some src s ltac:(lia)) as [x Ex]. rewrite Ex.
    destruct (upd_some dst d x ltac:(lia)) as [dst' Ed]. rewrite Ed. pose proof (upd_length _ _ _ _ Ed) as L.
    destruct (IH (S s) (S d) dst' ltac:(lia) ltac:(lia)) as (c & Ec & Lc & Nc). exists c. split; [exact Ec|]. split; [lia|].
    intro i. rewrite Nc. destruct (Nat.eq_dec d i) as [<-|Ne].
    + rewrite (upd_nth_eq _ _ _ _ Ed). destruct (Nat.leb_spec (S d) d), (Nat.leb_spec d d), (Nat.ltb_spec d (d + S n)); try lia. cbn.
      rewrite Nat.sub_diag, Nat.add_0_r. symmetry. exact Ex.
    + rewrite (upd_nth_neq _ _ _ _ _ Ed Ne).
      destruct (Nat.leb_spec (S d) i), (Nat.leb_spec d i), (Nat.ltb_spec i (S d + n)), (Nat.ltb_spec i (d + S n)); try lia; cbn [andb]; try reflexivity.
      f_equal. lia.
Qed.
Lemma fill_n_ok (x : A) : forall n d dst, d + n <= length dst ->
  exists c, fill_n dst d n x = Some c /\ length c = length dst /\
  forall i, nth_error c i = if (d <=? i) && (i <? d + n) then Some (Some x) else nth_error dst i.
Proof.
  induction n as [|n IH]; intros d dst Hd; cbn [fill_n].
  - exists dst. split; [reflexivity|]. split; [reflexivity|]. intro i. destruct (Nat.leb_spec d i), (Nat.ltb_spec i (d + 0)); try reflexivity; lia.
  - destruct (upd_some dst d (Some x) ltac:(lia)) as [dst' Ed]. rewrite Ed. pose proof (upd_length _ _ _ _ Ed) as L.
    destruct (IH (S d) dst' ltac:(lia)) as (c & Ec & Lc & Nc). exists c. split; [exact Ec|]. split; [lia|].
    intro i. rewrite Nc. destruct (Nat.eq_dec d i) as [<-|Ne].
    + rewrite (upd_nth_eq _ _ _ _ Ed). destruct (Nat.leb_spec (S d) d), (Nat.leb_spec d d), (Nat.ltb_spec d (d + S n)); try lia. reflexivity.
    + rewrite (upd_nth_neq _ _ _ _ _ Ed Ne).
      destruct (Nat.leb_spec (S d) i), (Nat.leb_spec d i), (Nat.ltb_spec i (S d + n)), (Nat.ltb_spec i (d + S n)); try lia; cbn; reflexivity.
Qed.

Definition rep v l : Prop := vsize v = length l /\ length l <= capacity v /\
  forall i x, nth_error l i = Some x -> exists y, nth_error (cells v) i = Some y /\ agrees x y.

Lemma growth_ge n c : n <= growth n c.
Proof. unfold growth. destruct (Nat.ltb_spec (c + c / 2) n); lia. Qed.
Lemma nth_repeat_lt {B} (x : B) n i : i < n -> nth_error (repeat x n) i = Some x.
Proof. revert i; induction n; intros i H; [lia|]. destruct i; cbn; [reflexivity|apply IHn; lia]. Qed.
Lemma nth_app_firstn {B} (l r : list B) n i : nth_error (firstn n l ++ r) i =
  if i <? Nat.min n (length l) then nth_error l i else nth_error r (i - Nat.min n (length l)).
Proof.
  destruct (Nat.ltb_spec i (Nat.min n (length l))) as [L|L].
  - rewrite nth_error_app1 by (rewrite firstn_length; exact L).
    rewrite <- (firstn_skipn n l) at 2. rewrite nth_error_app1 by (rewrite firstn_length; exact L). reflexivity.
  - rewrite nth_error_app2 by (rewrite firstn_length; exact L). rewrite firstn_length. reflexivity.
Qed.
Lemma agrees_refl (x : option A) : agrees x x. Proof. destruct x; cbn; auto. Qed.

(** grow/shrink to a spec list whose new elements are [tailv], given the new cells *)
Lemma rep_resized v l n (w : vec) (t : list (option A)) : rep v l -> length t = n - length l -> vsize w = n -> n <= capacity w ->
  (forall i, i < Nat.min n (length l) -> nth_error (cells w) i = nth_error (cells v) i) ->
  (forall i x, nth_error t i = Some x -> exists y, nth_error (cells w) (length l + i) = Some y /\ agrees x y) ->
  rep w (firstn n l ++ t).
Proof.
  intros (R1 & R2 & R3) Lt Sw Cw H1 H2. split; [|split].
  - rewrite app_length, firstn_length. lia.
  - rewrite app_length, firstn_length. lia.
  - intros i x. rewrite nth_app_firstn. destruct (Nat.ltb_spec i (Nat.min n (length l))) as [L|L]; intro E.
    + rewrite H1 by exact L. apply R3. exact E.
    + assert (i - Nat.min n (length l) < length t) by (apply nth_error_some_lt in E; exact E).
      destruct (H2 _ _ E) as (y & Ey & Ay). exists y. split; [|exact Ay]. replace i with (length l + (i - Nat.min n (length l))) by lia. exact Ey.
Qed.
Lemma realloc_rep v l cap n : rep v l -> length l <= n <= cap -> exists w, realloc v cap n = Some w /\ rep w (firstn n l ++ repeat None (n - length l)).
Proof.
  intros R Hn. pose proof R as (R1 & R2 & R3). unfold realloc, capacity in *.
  destruct (copy_n_ok (cells v) (vsize v) 0 0 (repeat None cap)) as (c & Ec & Lc & Nc); [lia|rewrite repeat_length; lia|].
  rewrite Ec. eexists. split; [reflexivity|]. rewrite repeat_length in Lc. apply (rep_resized v l); auto.
  - apply repeat_length.
  - unfold capacity; cbn; lia.
  - intros i Hi. cbn [cells]. rewrite Nc. destruct (Nat.leb_spec 0 i), (Nat.ltb_spec i (0 + vsize v)); try lia. cbn. f_equal. lia.
  - intros i x Hx. assert (L : i < n - length l) by (apply nth_error_some_lt in Hx; rewrite repeat_length in Hx; exact Hx). rewrite nth_repeat_lt in Hx by exact L. injection Hx as <-. cbn [cells]. destruct (nth_error_lt_some c (length l + i) ltac:(lia)) as [y Ey].
    exists y. split; [exact Ey|exact I].
Qed.
Lemma same_cells_rep v l n : rep v l -> n <= capacity v -> rep (mkvec (cells v) n) (firstn n l ++ repeat None (n - length l)).
Proof.
  intros R Hn. apply (rep_resized v l); auto.
  - apply repeat_length.
  - intros i x Hx. assert (L : i < n - length l) by (apply nth_error_some_lt in Hx; rewrite repeat_length in Hx; exact Hx).
    rewrite nth_repeat_lt in Hx by exact L. injection Hx as <-. cbn [cells]. unfold capacity in Hn.
    destruct (nth_error_lt_some (cells v) (length l + i) ltac:(lia)) as [y Ey]. exists y. split; [exact Ey|exact I].
Qed.
Lemma resize_rep v l n : rep v l -> exists w, resize v n = Some w /\ rep w (firstn n l ++ repeat None (n - length l)).
Proof.
  intro R. pose proof R as (R1 & R2 & R3). unfold resize.
  destruct (Nat.ltb_spec n (vsize v)); [eexists; split; [reflexivity|apply same_cells_rep; [exact R|lia]]|].
  destruct (Nat.ltb_spec (vsize v) n).
  - destruct (Nat.ltb_spec (capacity v) n).
    + apply realloc_rep; [exact R|]. pose proof (growth_ge n (capacity v)). lia.
    + eexists; split; [reflexivity|apply same_cells_rep; [exact R|lia]].
  - exists v. split; [reflexivity|]. replace n with (length l) by lia. rewrite firstn_all, Nat.sub_diag. cbn. rewrite app_nil_r. exact R.
Qed.
Lemma aresize_rep v l n al : rep v l -> 0 < al -> exists w, alignedResize v n al = Some w /\ rep w (firstn n l ++ repeat None (n - length l)).
Proof.
  intros R Hal. pose proof R as (R1 & R2 & R3). unfold alignedResize.
  destruct (Nat.ltb_spec n (vsize v)); [eexists; split; [reflexivity|apply same_cells_rep; [exact R|lia]]|].
  destruct (Nat.ltb_spec (vsize v) n).
  - destruct (Nat.ltb_spec (capacity v) n).
    + destruct (Nat.eqb_spec al 0); [lia|]. apply realloc_rep; [exact R|]. pose proof (growth_ge n (capacity v)). lia.
    + eexists; split; [reflexivity|apply same_cells_rep; [exact R|lia]].
  - exists v. split; [reflexivity|]. replace n with (length l) by lia. rewrite firstn_all, Nat.sub_diag. cbn. rewrite app_nil_r. exact R.
Qed.
Lemma fill_rep v l n x c : rep v l -> length l <= n <= length c ->
  (forall i, i < length l -> nth_error c i = nth_error (cells v) i) ->
  exists c', fill_n c (vsize v) (n - vsize v) x = Some c' /\ rep (mkvec c' n) (firstn n l ++ repeat (Some x) (n - length l)).
Proof.
  intros R Hn Hc. pose proof R as (R1 & R2 & R3).
  destruct (fill_n_ok x (n - vsize v) (vsize v) c ltac:(lia)) as (c' & E & L & N). exists c'. split; [exact E|]. apply (rep_resized v l); auto.
  - apply repeat_length.
  - unfold capacity; cbn; lia.
  - intros i Hi. cbn [cells]. rewrite N. destruct (Nat.leb_spec (vsize v) i), (Nat.ltb_spec i (vsize v + (n - vsize v))); try lia; cbn; apply Hc; lia.
  - intros i y Hy. assert (Li : i < n - length l) by (apply nth_error_some_lt in Hy; rewrite repeat_length in Hy; exact Hy).
    rewrite nth_repeat_lt in Hy by exact Li. injection Hy as <-. exists (Some x). split; [|reflexivity]. cbn [cells]. rewrite N.
    destruct (Nat.leb_spec (vsize v) (length l + i)), (Nat.ltb_spec (length l + i) (vsize v + (n - vsize v))); try lia. reflexivity.
Qed.
Lemma resize_fill_rep v l n x : rep v l -> exists w, resize_fill v n x = Some w /\ rep w (firstn n l ++ repeat (Some x) (n - length l)).
Proof.
  intro R. pose proof R as (R1 & R2 & R3). unfold resize_fill, capacity in *.
  destruct (Nat.ltb_spec n (vsize v)).
  { eexists. split; [reflexivity|]. replace (n - length l) with 0 by lia. cbn. apply (rep_resized v l); auto; cbn; unfold capacity; cbn; try lia.
    intros i y Hy. destruct i; discriminate. }
  destruct (Nat.ltb_spec (vsize v) n).
  - destruct (Nat.ltb_spec (length (cells v)) n).
    + pose proof (growth_ge n (length (cells v))).
      destruct (copy_n_ok (cells v) (vsize v) 0 0 (repeat None (growth n (length (cells v))))) as (c & Ec & Lc & Nc); [lia|rewrite repeat_length; lia|].
      rewrite Ec. rewrite repeat_length in Lc.
      destruct (fill_rep v l n x c R ltac:(lia)) as (c' & E & R').
      { intros i Hi. rewrite Nc. destruct (Nat.leb_spec 0 i), (Nat.ltb_spec i (0 + vsize v)); try lia. cbn. f_equal. lia. }
      rewrite E. eauto.
    + destruct (fill_rep v l n x (cells v) R ltac:(lia)) as (c' & E & R'); [auto|]. rewrite E. eauto.
  - exists v. split; [reflexivity|]. replace n with (length l) by lia. rewrite firstn_all, Nat.sub_diag. cbn. rewrite app_nil_r. exact R.
Qed.
Lemma store_rep v l i x : rep v l -> i < length l -> exists w, store v i x = Some w /\ rep w (set_nth l i x).
Proof.
  intros (R1 & R2 & R3) Hi. unfold store, capacity in *. destruct (upd_some (cells v) i x ltac:(lia)) as [c Ec]. rewrite Ec.
  eexists. split; [reflexivity|]. pose proof (upd_length _ _ _ _ Ec) as L. unfold set_nth. split; [|split].
  - cbn [vsize]. rewrite app_length, firstn_length. cbn [length]. rewrite skipn_length. lia.
  - unfold capacity. cbn [cells]. rewrite app_length, firstn_length. cbn [length]. rewrite skipn_length. lia.
  - intros j y. cbn [cells]. rewrite nth_app_firstn. destruct (Nat.ltb_spec j (Nat.min i (length l))) as [Lj|Lj]; intro E.
    + rewrite (upd_nth_neq _ _ _ _ _ Ec) by lia. apply R3. exact E.
    + destruct (Nat.eq_dec i j) as [<-|Ne].
      * replace (i - Nat.min i (length l)) with 0 in E by lia. injection E as <-. exists x. split; [apply (upd_nth_eq _ _ _ _ Ec)|apply agrees_refl].
      * rewrite (upd_nth_neq _ _ _ _ _ Ec) by exact Ne. apply R3. replace (j - Nat.min i (length l)) with (S (j - S i)) in E by lia. cbn [nth_error] in E.
        rewrite <- (firstn_skipn (S i) l). rewrite nth_error_app2 by (rewrite firstn_length; lia). rewrite firstn_length.
        replace (j - Nat.min (S i) (length l)) with (j - S i) by lia. exact E.
Qed.
Lemma reset_rep v l x : rep v l -> exists w, reset v x = Some w /\ rep w (repeat (Some x) (length l)).
Proof.
  intros (R1 & R2 & R3). unfold reset, capacity in *. destruct (fill_n_ok x (vsize v) 0 (cells v) ltac:(lia)) as (c & E & L & N).
  rewrite E. eexists. split; [reflexivity|]. split; [|split]; cbn; unfold capacity; cbn; rewrite ?repeat_length; try lia.
  intros i y Hy. assert (Li : i < length l) by (apply nth_error_some_lt in Hy; rewrite repeat_length in Hy; exact Hy).
  rewrite nth_repeat_lt in Hy by exact Li. injection Hy as <-. exists (Some x). split; [|reflexivity]. rewrite N.
  destruct (Nat.leb_spec 0 i), (Nat.ltb_spec i (0 + vsize v)); try lia. reflexivity.
Qed.
Lemma push_rep v l x : rep v l -> exists w, push_back v x = Some w /\ rep w (l ++ [x]).
Proof.
  intro R. pose proof R as (R1 & _). unfold push_back. destruct (resize_rep v l (S (vsize v)) R) as (w & E & Rw). rewrite E.
  rewrite R1 in Rw |- *. rewrite (firstn_all2 l) in Rw by lia. replace (S (length l) - length l) with 1 in Rw by lia. cbn in Rw.
  destruct (store_rep w _ (length l) x Rw) as (w' & E' & R'); [rewrite app_length; cbn; lia|]. exists w'. split; [exact E'|].
  unfold set_nth in R'. rewrite firstn_app, firstn_all, Nat.sub_diag in R'. cbn [firstn] in R'. rewrite app_nil_r in R'.
  rewrite skipn_all2 in R' by (rewrite app_length; cbn; lia). exact R'.
Qed.
Lemma append_rep v l u m self : rep v l -> rep u m -> (self = true -> u = v /\ m = l) -> exists w, append v u self = Some w /\ rep w (l ++ m).
Proof.
  intros R U Hs. pose proof R as (R1 & R2 & R3). pose proof U as (U1 & U2 & U3). unfold append.
  destruct (Nat.eqb_spec (vsize u) 0) as [Z|Z].
  { exists v. split; [reflexivity|]. destruct m; [rewrite app_nil_r; exact R|cbn in U1; lia]. }
  assert (G : exists w, (if capacity v - vsize v <? vsize u then resize v (vsize v + vsize u) else Some (mkvec (cells v) (vsize v + vsize u))) = Some w /\
     rep w (l ++ repeat None (length m))).
  { assert (E0 : firstn (vsize v + vsize u) l ++ repeat None (vsize v + vsize u - length l) = l ++ repeat None (length m)).
    { rewrite firstn_all2 by lia. f_equal. f_equal. lia. }
    destruct (Nat.ltb_spec (capacity v - vsize v) (vsize u)).
    - destruct (resize_rep v l (vsize v + vsize u) R) as (w & E & Rw). exists w. split; [exact E|]. rewrite <- E0. exact Rw.
    - eexists. split; [reflexivity|]. rewrite <- E0. apply same_cells_rep; [exact R|lia]. }
  destruct G as (w & Ew & (W1 & W2 & W3)). rewrite Ew. rewrite app_length, repeat_length in W1, W2. unfold capacity in *.
  set (src := if self then cells w else cells u).
  assert (SRC : vsize u <= length src /\ forall i x, nth_error m i = Some x -> exists y, nth_error src i = Some y /\ agrees x y).
  { unfold src. destruct self.
    - destruct (Hs eq_refl) as [-> ->]. split; [lia|]. intros i x E. apply W3. rewrite nth_error_app1; [exact E|apply nth_error_some_lt in E; exact E].
    - split; [lia|exact U3]. }
  destruct SRC as [S1 S2]. destruct (copy_n_ok src (vsize u) 0 (vsize v) (cells w) ltac:(lia) ltac:(lia)) as (c & Ec & Lc & Nc). rewrite Ec.
  eexists. split; [reflexivity|]. split; [|split]; cbn; unfold capacity; cbn; rewrite ?app_length; try lia.
  intros i x E. rewrite Nc. destruct (Nat.lt_ge_cases i (length l)) as [L|L].
  - rewrite nth_error_app1 in E by exact L. destruct (Nat.leb_spec (vsize v) i); [lia|]. cbn. apply W3. rewrite nth_error_app1 by exact L. exact E.
  - rewrite nth_error_app2 in E by exact L. pose proof (nth_error_some_lt _ _ _ E). destruct (Nat.leb_spec (vsize v) i), (Nat.ltb_spec i (vsize v + vsize u)); try lia.
    cbn. rewrite R1. apply S2. exact E.
Qed.
Lemma copy_rep v l : rep v l -> (exists w, v_copy v = Some w /\ rep w l) /\ (exists w, v_clone v = Some w /\ rep w l).
Proof.
  intros (R1 & R2 & R3). unfold v_copy, v_clone, capacity in *.
  assert (K : forall cap, length l <= cap -> exists c, copy_n (cells v) (repeat None cap) 0 0 (vsize v) = Some c /\ rep (mkvec c (vsize v)) l).
  { intros cap Hc. destruct (copy_n_ok (cells v) (vsize v) 0 0 (repeat None cap)) as (c & Ec & Lc & Nc); [lia|rewrite repeat_length; lia|].
    exists c. split; [exact Ec|]. rewrite repeat_length in Lc. split; [|split]; cbn; unfold capacity; cbn; try lia.
    intros i x E. rewrite Nc. pose proof (nth_error_some_lt _ _ _ E). destruct (Nat.leb_spec 0 i), (Nat.ltb_spec i (0 + vsize v)); try lia. cbn.
    rewrite Nat.sub_0_r. apply R3. exact E. }
  split.
  - destruct (K (length (cells v)) R2) as (c & E & R). rewrite E. eauto.
  - destruct (K (vsize v) ltac:(lia)) as (c & E & R). rewrite E. eauto.
Qed.

Definition erep (e : env A) (s : nat -> @sq A) : Prop := forall x, rep (e x) (s x).
Lemma erep_set e s x w l : erep e s -> rep w l -> erep (fset e x w) (fset s x l).
Proof. intros E R y. unfold fset. destruct (y =? x); [exact R|apply E]. Qed.
Lemma erep_set_same e s x w : erep e s -> rep w (s x) -> erep (fset e x w) s.
Proof. intros E R y. unfold fset. destruct (Nat.eqb_spec y x) as [->|]; [exact R|apply E]. Qed.

Lemma ctor0_rep : rep (v_ctor 0) [].
Proof. split; [reflexivity|]. split; [cbn; lia|]. intros i x E. destruct i; discriminate. Qed.
Lemma vstep_ok e s o : erep e s -> op_ok s o -> exists e', vstep e o = Some e' /\ erep e' (sstep s o).
Proof.
  intros E OK. destruct o as [x n|x n al|x n a|x|x a|x i a|x a|x y|x y|x y|x y|x y]; cbn [vstep sstep op_ok] in *; unfold set_env.
  - destruct (resize_rep (e x) (s x) n (E x)) as (w & -> & R). eexists. split; [reflexivity|]. apply erep_set; assumption.
  - destruct (aresize_rep (e x) (s x) n al (E x) OK) as (w & -> & R). eexists. split; [reflexivity|]. apply erep_set; assumption.
  - destruct (resize_fill_rep (e x) (s x) n a (E x)) as (w & -> & R). eexists. split; [reflexivity|]. apply erep_set; assumption.
  - destruct (resize_rep (e x) (s x) 0 (E x)) as (w & -> & R). eexists. split; [reflexivity|]. apply erep_set; assumption.
  - destruct (reset_rep (e x) (s x) a (E x)) as (w & -> & R). eexists. split; [reflexivity|]. apply erep_set; assumption.
  - destruct (store_rep (e x) (s x) i (Some a) (E x) OK) as (w & -> & R). eexists. split; [reflexivity|]. apply erep_set; assumption.
  - destruct (push_rep (e x) (s x) (Some a) (E x)) as (w & -> & R). eexists. split; [reflexivity|]. apply erep_set; assumption.
  - destruct (append_rep (e x) (s x) (e y) (s y) (x =? y) (E x) (E y)) as (w & -> & R).
    { intro Q. apply Nat.eqb_eq in Q. subst. auto. }
    eexists. split; [reflexivity|]. apply erep_set; assumption.
  - destruct (Nat.eqb_spec x y) as [<-|Ne].
    + eexists. split; [reflexivity|]. intro z. unfold fset. destruct (Nat.eqb_spec z x) as [->|]; apply E.
    + destruct (copy_rep (e y) (s y) (E y)) as [(w & -> & R) _]. eexists. split; [reflexivity|]. apply erep_set; assumption.
  - destruct (copy_rep (e y) (s y) (E y)) as [_ (w & -> & R)]. eexists. split; [reflexivity|]. apply erep_set; assumption.
  - destruct (Nat.eqb_spec x y) as [<-|Ne]; [eexists; split; [reflexivity|exact E]|].
    eexists. split; [reflexivity|]. apply erep_set; [apply erep_set; [exact E|apply ctor0_rep]|apply E].
  - eexists. split; [reflexivity|]. apply erep_set; [apply erep_set; [exact E|apply E]|apply E].
Qed.
Lemma vrun_ok os : forall e s, erep e s -> ops_ok s os -> exists e', vrun e os = Some e' /\ erep e' (srun s os).
Proof.
  induction os as [|o os IH]; intros e s E OK; cbn [vrun]; [eauto|]. destruct OK as [O1 O2].
  destruct (vstep_ok e s o E O1) as (e' & -> & E'). apply IH; assumption.
Qed.
Lemma vector_sequence (os : list (vop A)) : ops_ok (fun _ => []) os ->
  exists e, vrun (fun _ => v_ctor 0) os = Some e /\
  forall x, let spec := srun (fun _ => @nil (option A)) os x in
    vsize (e x) = length spec /\ vsize (e x) <= capacity (e x) /\
    forall i s, nth_error spec i = Some s -> exists y, load (e x) i = Some y /\ agrees s y.
Proof.
  intro OK. destruct (vrun_ok os (fun _ => v_ctor 0) (fun _ => []) (fun _ => ctor0_rep) OK) as (e & E & R). exists e. split; [exact E|].
  intro x. destruct (R x) as (R1 & R2 & R3). cbn zeta. split; [exact R1|]. split; [lia|exact R3].
Qed.

(** ---- reorder ---- *)
Lemma reorder_fold scatter (vs : list (option A)) map n : n = length map -> n <= length vs ->
  Forall (fun j => j < length vs) map -> (scatter = true -> NoDup map) ->
  forall sched d, NoDup sched -> Forall (fun i => i < n) sched -> length d = length vs ->
  exists c, fold_left (reorder_body scatter vs map) sched (Some d) = Some c /\ length c = length d /\
   (forall i j, In i sched -> nth_error map i = Some j ->
      if scatter then nth_error c j = nth_error vs i else nth_error c i = nth_error vs j) /\
   (forall k, (forall i j, In i sched -> nth_error map i = Some j -> k <> if scatter then j else i) -> nth_error c k = nth_error d k).
Proof.
  intros Hn Hl Hm Hs. induction sched as [|i sched IH]; intros d ND F Ld; cbn [fold_left].
  - exists d. split; [reflexivity|]. split; [reflexivity|]. split; [intros ? ? []|auto].
  - inversion ND as [|? ? ND1 ND2]; subst. inversion F as [|? ? F1 F2]; subst.
    destruct (nth_error_lt_some map i F1) as [j Ej].
    assert (Hj : j < length vs) by (rewrite Forall_forall in Hm; apply Hm; eapply nth_error_In; eauto).
    set (src := if scatter then i else j). set (dst := if scatter then j else i).
    destruct (nth_error_lt_some vs src) as [x Ex]; [unfold src; destruct scatter; lia|].
    destruct (upd_some d dst x) as [d' Ed]; [unfold dst; destruct scatter; lia|].
    assert (B : reorder_body scatter vs map (Some d) i = Some d').
    { unfold reorder_body. rewrite Ej. unfold src, dst in *. destruct scatter; rewrite Ex; exact Ed. }
    rewrite B. pose proof (upd_length _ _ _ _ Ed) as L'. destruct (IH d' ND2 F2 ltac:(lia)) as (c & Ec & Lc & K1 & K2).
    exists c. split; [exact Ec|]. split; [lia|]. split.
    + intros i' j' [<-|Hi] Ej'.
      * rewrite Ej in Ej'. injection Ej' as <-.
        assert (Q : nth_error c dst = nth_error vs src).
        { rewrite K2; [rewrite (upd_nth_eq _ _ _ _ Ed); symmetry; exact Ex|]. intros i2 j2 Hi2 Ej2. unfold dst. destruct scatter.
          - intros <-. apply ND1. specialize (Hs eq_refl). rewrite NoDup_nth_error in Hs. rewrite (Hs i i2 F1); [exact Hi2|congruence].
          - intros <-. contradiction. }
        unfold src, dst in Q. destruct scatter; exact Q.
      * apply (K1 i' j' Hi Ej').
    + intros k Hk. rewrite K2 by (intros i2 j2 Hi2; apply Hk; right; exact Hi2).
      apply (upd_nth_neq _ _ _ _ _ Ed). apply not_eq_sym. exact (Hk i j (or_introl eq_refl) Ej).
Qed.
Lemma reorder_ok scatter v map sched : vsize v <= capacity v -> length map = vsize v -> Permutation map (seq 0 (vsize v)) -> Permutation sched (seq 0 (vsize v)) ->
  exists w, reorder scatter v map sched = Done (Some w) /\ vsize w = capacity v /\ capacity w = capacity v /\
   forall i j, nth_error map i = Some j -> if scatter then load w j = load v i else load w i = load v j.
Proof.
  intros Hc Hm PM PS. unfold reorder. rewrite Hm, Nat.eqb_refl. cbn [negb]. unfold capacity in *.
  destruct (reorder_fold scatter (cells v) map (vsize v) (eq_sym Hm) Hc) with (sched := sched) (d := repeat (@None A) (length (cells v))) as (c & Ec & Lc & K1 & _).
  - apply Forall_forall. intros j Hj. apply (Permutation_in _ PM) in Hj. apply in_seq in Hj. lia.
  - intros _. apply (Permutation_NoDup (Permutation_sym PM)). apply seq_NoDup.
  - apply (Permutation_NoDup (Permutation_sym PS)). apply seq_NoDup.
  - apply Forall_forall. intros j Hj. apply (Permutation_in _ PS) in Hj. apply in_seq in Hj. lia.
  - apply repeat_length.
  - rewrite Ec. eexists. split; [reflexivity|]. rewrite repeat_length in Lc. cbn. split; [reflexivity|]. split; [exact Lc|].
    intros i j E. apply (K1 i j); [|exact E]. apply (Permutation_in _ (Permutation_sym PS)). apply in_seq. apply nth_error_some_lt in E. lia.
Qed.
Lemma reorder_throws scatter v map sched : length map <> vsize v -> reorder scatter v map sched = Threw.
Proof. intro H. unfold reorder. destruct (Nat.eqb_spec (length map) (vsize v)); [contradiction|reflexivity]. Qed.
End P.
