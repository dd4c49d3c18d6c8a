From Coq Require Import Sorted.
From Verif Require Import Prelude SortModel SortSpec SortProofs SortProofs2 BvsModel BvsSpec.
Open Scope Z_scope.

Lemma overlaps_sym dim a b : overlaps dim a b = overlaps dim b a.
Proof.
  unfold overlaps. induction (seq 0 dim) as [|d l IH]; [reflexivity|]. cbn [forallb]. rewrite IH. f_equal. f_equal. apply orb_comm.
Qed.
Lemma overlaps_meet dim a b : nonempty dim a -> nonempty dim b -> (overlaps dim a b = true <-> meet dim a b).
Proof.
  intros Na Nb. unfold overlaps. rewrite forallb_forall. split.
  - intro H. exists (map (fun d => Z.max (bmin a d) (bmin b d)) (seq 0 dim)). split; [rewrite map_length, seq_length; reflexivity|].
    assert (G : forall d, (d < dim)%nat -> nth d (map (fun d => Z.max (bmin a d) (bmin b d)) (seq 0 dim)) 0 = Z.max (bmin a d) (bmin b d)).
    { intros d Hd. rewrite (nth_indep _ 0 ((fun d => Z.max (bmin a d) (bmin b d)) 0%nat)) by (rewrite map_length, seq_length; exact Hd).
      rewrite (map_nth (fun d => Z.max (bmin a d) (bmin b d))), seq_nth by exact Hd. reflexivity. }
    split; intros d Hd; rewrite map_length, seq_length in Hd; rewrite (G d Hd); specialize (H d ltac:(apply in_seq; lia));
      specialize (Na d Hd); specialize (Nb d Hd); unfold bmin, bmax in *; lia.
  - intros (p & Hp & Ia & Ib) d Hd. apply in_seq in Hd. specialize (Ia d ltac:(lia)). specialize (Ib d ltac:(lia)). unfold bmin, bmax. lia.
Qed.

Lemma gather_ok prims idx l : gather prims idx = Some l -> Forall2 (fun i b => nth_error prims i = Some b) idx l.
Proof.
  revert l. induction idx as [|i r IH]; cbn [gather]; intros l H; [injection H as <-; constructor|].
  destruct (nth_error prims i) as [b|] eqn:E; [|discriminate]. destruct (gather prims r) as [l'|]; cbn [bind] in H; [|discriminate].
  injection H as <-. constructor; auto.
Qed.
Lemma gather_some prims idx : (forall i, In i idx -> (i < length prims)%nat) -> exists l, gather prims idx = Some l.
Proof.
  induction idx as [|i r IH]; cbn [gather]; intro H; [eauto|]. destruct (nth_error prims i) eqn:E.
  - destruct IH as [l ->]; [intros; apply H; right; assumption|]. cbn [bind]. eauto.
  - apply nth_error_None in E. specialize (H i (or_introl eq_refl)). lia.
Qed.
Lemma F2_nth {A B} (R : A -> B -> Prop) l l' : Forall2 R l l' -> forall i x y, nth_error l i = Some x -> nth_error l' i = Some y -> R x y.
Proof. induction 1; intros [|i] a b Ha Hb; cbn in *; try discriminate; [congruence|eauto]. Qed.
Lemma F2_len {A B} (R : A -> B -> Prop) l l' : Forall2 R l l' -> length l = length l'.
Proof. induction 1; cbn; congruence. Qed.

(** what build and refit establish *)
Definition good (prims : list box) (t : lbvs) : Prop :=
  Permutation (aux t) (seq 0 (length prims)) /\ Forall2 (fun i b => nth_error prims i = Some b) (aux t) (bvs t) /\
  (forall i j a b, (i <= j)%nat -> nth_error (bvs t) i = Some a -> nth_error (bvs t) j = Some b -> bmin a (ax t) <= bmin b (ax t)).

Lemma good_len prims t : good prims t -> length (aux t) = length prims /\ length (bvs t) = length prims.
Proof.
  intros (P & F & _). apply Permutation_length in P. rewrite seq_length in P. apply F2_len in F. lia.
Qed.

Lemma sorted_good prims a (s : list (Z * nat)) l (idx : list nat) :
  Permutation idx (seq 0 (length prims)) ->
  Permutation s (combine (map (fun i => match nth_error prims i with Some b => bmin b a | None => 0 end) idx) idx) ->
  StronglySorted (fun x y => fst x <= fst y) s -> gather prims (map snd s) = Some l ->
  good prims (mkLbvs l a (map fst s) (map snd s)).
Proof.
  intros Pi Ps Ss G. apply gather_ok in G. unfold good. cbn [aux bvs ax].
  assert (Hkey : forall k i, In (k, i) s -> k = match nth_error prims i with Some b => bmin b a | None => 0 end).
  { intros k i Hi. apply (Permutation_in _ Ps) in Hi. clear - Hi. induction idx as [|j r IH]; [contradiction|].
    cbn [map combine] in Hi. destruct Hi as [E|Hi]; [injection E as <- <-; reflexivity|auto]. }
  split; [|split].
  - transitivity idx; [|exact Pi]. rewrite (Permutation_map snd Ps). clear. induction idx as [|i r IH]; [reflexivity|]. cbn. constructor. exact IH.
  - exact G.
  - intros i j x y Hij Hx Hy.
    assert (Hs : forall i x, nth_error l i = Some x -> exists p, nth_error s i = Some p /\ fst p = bmin x a).
    { intros i0 x0 H0. pose proof (F2_len _ _ _ G) as L. rewrite map_length in L. destruct (nth_error s i0) as [p|] eqn:E.
      - exists p. split; [reflexivity|]. destruct p as [k m]. rewrite (Hkey k m (nth_error_In _ _ E)). cbn [fst].
        assert (Em : nth_error (map snd s) i0 = Some m) by (rewrite nth_error_map, E; reflexivity).
        rewrite (F2_nth _ _ _ G i0 m x0 Em H0). reflexivity.
      - apply nth_error_None in E. assert (i0 < length l)%nat by (apply nth_error_Some; congruence). lia. }
    destruct (Hs i x Hx) as (p & Ep & <-). destruct (Hs j y Hy) as (q & Eq & <-). clear - Ss Hij Ep Eq.
    revert i j Hij Ep Eq. induction Ss as [|e s Ss IH F]; intros i j Hij Ep Eq; [destruct i; discriminate|].
    destruct i as [|i], j as [|j]; cbn in Ep, Eq.
    + assert (p = q) by congruence. subst. lia.
    + injection Ep as ->. rewrite Forall_forall in F. apply F. exact (nth_error_In _ _ Eq).
    + lia.
    + apply (IH i j); [lia|assumption|assumption].
Qed.

Lemma seq_keys_gen a pre prims : map (fun b => bmin b a) prims =
  map (fun i => match nth_error (pre ++ prims) i with Some b => bmin b a | None => 0 end) (seq (length pre) (length prims)).
Proof.
  revert pre. induction prims as [|b r IH]; intro pre; [reflexivity|]. cbn [map length seq]. f_equal.
  - rewrite nth_error_app2 by lia. rewrite Nat.sub_diag. reflexivity.
  - specialize (IH (pre ++ [b])). rewrite <- app_assoc in IH. cbn [app] in IH. rewrite app_length in IH. cbn [length] in IH.
    rewrite Nat.add_1_r in IH. exact IH.
Qed.
Lemma seq_keys a prims : map (fun b => bmin b a) prims =
  map (fun i => match nth_error prims i with Some b => bmin b a | None => 0 end) (seq 0 (length prims)).
Proof. exact (seq_keys_gen a [] prims). Qed.
Lemma gather_keys a prims idx l : gather prims idx = Some l ->
  map (fun b => bmin b a) l = map (fun i => match nth_error prims i with Some b => bmin b a | None => 0 end) idx.
Proof.
  intro G. apply gather_ok in G. induction G as [|i b idx l H F IH]; [reflexivity|]. cbn [map]. rewrite H, IH. reflexivity.
Qed.
Lemma combine_snd {A B} (f : A -> B) l : map snd (combine (map f l) l) = l.
Proof. induction l as [|x l IH]; [reflexivity|]. cbn. rewrite IH. reflexivity. Qed.

(** contract of the device sort used by build: a rearrangement in ascending key order *)
Definition sorts (dsort : list (Z * nat) -> list (Z * nat)) : Prop :=
  forall l, Permutation (dsort l) l /\ StronglySorted (fun x y => fst x <= fst y) (dsort l).

Lemma build_good dim dsort prims axis : sorts dsort -> exists t, build dim dsort prims axis = Some t /\ good prims t.
Proof.
  intro Hs. unfold build. set (a := pick_axis dim prims axis). rewrite seq_keys. set (l := combine _ _). destruct (Hs l) as [P Ss].
  assert (Q : Permutation (map snd (dsort l)) (seq 0 (length prims))) by (rewrite (Permutation_map snd P); unfold l; rewrite combine_snd; reflexivity).
  destruct (gather_some prims (map snd (dsort l))) as [bs G].
  { intros i Hi. apply (Permutation_in _ Q) in Hi. apply in_seq in Hi. lia. }
  rewrite G. cbn [bind]. eexists. split; [reflexivity|].
  apply (sorted_good prims a (dsort l) bs (seq 0 (length prims))); [reflexivity|exact P|exact Ss|exact G].
Qed.

Lemma key_swo : strict_weak_order (fun p q : Z * nat => fst p <? fst q).
Proof. split; [intros; apply Z.ltb_irrefl|]. split; intros x y z; rewrite ?Z.ltb_lt; intros; lia. Qed.

Lemma refit_good prims0 t prims tmp : good prims0 t -> length prims = length prims0 -> length tmp = length prims ->
  exists t', refit t prims tmp = Some t' /\ good prims t' /\ ax t' = ax t.
Proof.
  intros Gd L Lt. destruct (good_len _ _ Gd) as [La Lb]. destruct Gd as (P & F & _). unfold refit.
  replace (length prims =? length (bvs t))%nat with true by (symmetry; apply Nat.eqb_eq; lia). cbn [negb].
  rewrite <- L in P.
  destruct (gather_some prims (aux t)) as [l0 G0]. { intros i Hi. apply (Permutation_in _ P) in Hi. apply in_seq in Hi. lia. }
  rewrite G0. cbn [bind]. rewrite (gather_keys (ax t) prims (aux t) l0 G0). set (l := combine _ _).
  assert (Ll : length l = length prims) by (unfold l; rewrite combine_length, map_length; lia).
  destruct (merge_sort_ok (fun p q : Z * nat => fst p <? fst q) key_swo l tmp ltac:(lia)) as (s & Em & Pm & Sm & _).
  rewrite Em. cbn [bind].
  assert (Q : Permutation (map snd s) (seq 0 (length prims))) by (rewrite <- (Permutation_map snd Pm); unfold l; rewrite combine_snd; exact P).
  destruct (gather_some prims (map snd s)) as [bs G].
  { intros i Hi. apply (Permutation_in _ Q) in Hi. apply in_seq in Hi. lia. }
  rewrite G. cbn [bind]. eexists. split; [reflexivity|]. split; [|reflexivity].
  apply (sorted_good prims (ax t) s bs (aux t)); [exact P|symmetry; exact Pm| |exact G].
  clear - Sm. unfold ascending in Sm. induction Sm as [|x s S IH F]; constructor; [assumption|].
  revert F. apply Forall_impl. intros y H. lia.
Qed.

(** binary search *)
Definition located (t : lbvs) (v r : Z) : Prop :=
  -1 <= r < Z.of_nat (length (bvs t)) /\
  forall i b, nth_error (bvs t) i = Some b -> (Z.of_nat i <= r <-> bmin b (ax t) <= v).
Lemma locate_loop_ok prims t v : good prims t -> forall fuel left right, 0 <= left -> -1 <= right < Z.of_nat (length (bvs t)) -> left <= right + 1 ->
  (forall i b, nth_error (bvs t) i = Some b -> Z.of_nat i < left -> bmin b (ax t) <= v) ->
  (forall i b, nth_error (bvs t) i = Some b -> right < Z.of_nat i -> v < bmin b (ax t)) ->
  right - left + 2 <= Z.of_nat fuel -> exists r, locate_loop fuel t v left right = Some r /\ located t v r.
Proof.
  intros (_ & _ & Ss). induction fuel as [|f IH]; intros left right Hl Hr Hlr Lo Hi Hf; [lia|].
  cbn [locate_loop]. destruct (left <=? right) eqn:E.
  - set (mid := left + (right - left) / 2).
    assert (Hm : left <= mid <= right) by (unfold mid; split; [|]; [pose proof (Z.div_pos (right - left) 2 ltac:(lia) ltac:(lia)); lia|]; pose proof (Z.mul_div_le (right - left) 2 ltac:(lia)); lia).
    clearbody mid. destruct (mid <? 0) eqn:E0; [lia|]. destruct (nth_error (bvs t) (Z.to_nat mid)) as [b|] eqn:Eb.
    2: { apply nth_error_None in Eb. lia. }
    destruct (v <? bmin b (ax t)) eqn:Ev; apply IH; try lia; try assumption.
    + intros i c Hc Hgt. pose proof (Ss (Z.to_nat mid) i b c ltac:(lia) Eb Hc). lia.
    + intros i c Hc Hlt. pose proof (Ss i (Z.to_nat mid) c b ltac:(lia) Hc Eb). lia.
  - exists right. split; [reflexivity|]. split; [lia|]. intros i b Hb. specialize (Lo i b Hb). specialize (Hi i b Hb). lia.
Qed.
Lemma locate_ok prims t v : good prims t -> exists r, locate t v = Some r /\ located t v r.
Proof.
  intro G. unfold locate. apply (locate_loop_ok prims t v G); try lia.
  intros i b Hb H. assert (i < length (bvs t))%nat by (apply nth_error_Some; congruence). lia.
Qed.

Lemma sweep_ok dim t q : NoDup (aux t) -> length (aux t) = length (bvs t) -> forall n i, (i + n <= length (bvs t))%nat ->
  exists out, sweep dim t q i n = Some out /\ NoDup out /\
    forall k, In k out <-> exists m b, (i <= m < i + n)%nat /\ nth_error (aux t) m = Some k /\ nth_error (bvs t) m = Some b /\ overlaps dim b q = true.
Proof.
  intros Nd L. induction n as [|n IH]; intros i Hi; cbn [sweep].
  - exists []. split; [reflexivity|]. split; [constructor|]. intro k. split; [contradiction|]. intros (m & b & H & _). lia.
  - destruct (nth_error (aux t) i) as [p|] eqn:Ea; [|apply nth_error_None in Ea; lia].
    destruct (nth_error (bvs t) i) as [b|] eqn:Eb; [|apply nth_error_None in Eb; lia].
    destruct (IH (S i) ltac:(lia)) as (r & Er & Nr & Hr). rewrite Er. cbn [bind]. eexists. split; [reflexivity|].
    assert (Np : ~ In p r).
    { intro Hp. apply Hr in Hp. destruct Hp as (m & _ & Hm & Em & _). rewrite NoDup_nth_error in Nd.
      assert (i = m) by (apply Nd; [apply nth_error_Some; congruence|congruence]). lia. }
    split; [destruct (overlaps dim b q); [constructor; assumption|assumption]|].
    assert (Hr' : forall k, In k r <-> exists m b, (S i <= m < i + S n)%nat /\ nth_error (aux t) m = Some k /\ nth_error (bvs t) m = Some b /\ overlaps dim b q = true).
    { intro k. rewrite Hr. split; intros (m & b' & Hm & R); exists m, b'; (split; [lia|exact R]). }
    clear Hr. intro k. destruct (overlaps dim b q) eqn:Eo.
    + cbn [In]. rewrite Hr'. split.
      * intros [<-|(m & b' & Hm & R)]; [exists i, b; repeat split; auto; lia|exists m, b'; split; [lia|exact R]].
      * intros (m & b' & Hm & R1 & R2 & R3). destruct (Nat.eq_dec m i) as [->|]; [left; congruence|right; exists m, b'; repeat split; auto; lia].
    + rewrite Hr'. split.
      * intros (m & b' & Hm & R). exists m, b'. split; [lia|exact R].
      * intros (m & b' & Hm & R1 & R2 & R3). destruct (Nat.eq_dec m i) as [->|]; [assert (b' = b) by congruence; congruence|exists m, b'; repeat split; auto; lia].
Qed.

Lemma overlaps_key dim b q a : (a < dim)%nat -> overlaps dim b q = true -> bmin b a <= bmax q a.
Proof. intros Ha H. unfold overlaps in H. rewrite forallb_forall in H. specialize (H a ltac:(apply in_seq; lia)). lia. Qed.

Lemma good_nodup prims t : good prims t -> NoDup (aux t).
Proof. intros (P & _). apply (Permutation_NoDup (Permutation_sym P)), seq_NoDup. Qed.
Lemma good_at prims t k b : good prims t -> nth_error prims k = Some b -> exists m, nth_error (aux t) m = Some k /\ nth_error (bvs t) m = Some b.
Proof.
  intros G Hk. assert (Hin : In k (aux t)).
  { destruct G as (P & _). apply (Permutation_in _ (Permutation_sym P)). apply in_seq. assert (k < length prims)%nat by (apply nth_error_Some; congruence). lia. }
  apply In_nth_error in Hin. destruct Hin as [m Hm]. exists m. split; [exact Hm|].
  destruct (good_len _ _ G) as [La Lb]. destruct (nth_error (bvs t) m) as [b'|] eqn:E.
  - destruct G as (_ & F & _). pose proof (F2_nth _ _ _ F m k b' Hm E) as Q. cbn in Q. congruence.
  - apply nth_error_None in E. assert (m < length (aux t))%nat by (apply nth_error_Some; congruence). lia.
Qed.
Lemma good_back prims t m k b : good prims t -> nth_error (aux t) m = Some k -> nth_error (bvs t) m = Some b -> nth_error prims k = Some b.
Proof. intros (_ & F & _) H1 H2. exact (F2_nth _ _ _ F m k b H1 H2). Qed.

Lemma iter_ok dim prims t q : good prims t -> (ax t < dim)%nat -> Forall (nonempty dim) prims -> nonempty dim q ->
  exists out, iter_neighbors dim t q = Some out /\ exact_hits dim prims q out.
Proof.
  intros G Ha Nb Nq. destruct (locate_ok prims t (bmax q (ax t)) G) as (r & Er & Hr & Hloc). destruct (good_len _ _ G) as [La Lb].
  unfold iter_neighbors. rewrite Er. cbn [bind].
  destruct (sweep_ok dim t q (good_nodup _ _ G) ltac:(lia) (Z.to_nat (r + 1)) 0 ltac:(lia)) as (out & Eo & Nd & Hin).
  exists out. split; [exact Eo|]. split; [exact Nd|]. intro k. rewrite Hin. rewrite Forall_forall in Nb. split.
  - intros (m & b & Hm & Hk & Hb & Ho). exists b. pose proof (good_back _ _ _ _ _ G Hk Hb) as Hp. split; [exact Hp|].
    apply overlaps_meet; [apply Nb; exact (nth_error_In _ _ Hp)|exact Nq|exact Ho].
  - intros (b & Hp & Hmeet). destruct (good_at _ _ _ _ G Hp) as (m & Hk & Hb).
    apply overlaps_meet in Hmeet; [|apply Nb; exact (nth_error_In _ _ Hp)|exact Nq].
    exists m, b. split; [|auto]. pose proof (overlaps_key dim b q (ax t) Ha Hmeet) as K. apply (Hloc m b Hb) in K. lia.
Qed.

Lemma self_ok dim prims t node q : good prims t -> nth_error (bvs t) node = Some q ->
  exists out, self_iter_neighbors dim t node = Some out /\ NoDup out /\
   ((ax t < dim)%nat -> forall k, In k out <-> exists m b, (node < m)%nat /\ nth_error (aux t) m = Some k /\ nth_error (bvs t) m = Some b /\ overlaps dim b q = true).
Proof.
  intros G Hq. destruct (locate_ok prims t (bmax q (ax t)) G) as (r & Er & Hr & Hloc). destruct (good_len _ _ G) as [La Lb].
  assert (Hn : (node < length (bvs t))%nat) by (apply nth_error_Some; congruence).
  unfold self_iter_neighbors. rewrite Hq, Er. cbn [bind].
  destruct (sweep_ok dim t q (good_nodup _ _ G) ltac:(lia) (Z.to_nat (r - Z.of_nat node)) (S node) ltac:(lia)) as (out & Eo & Nd & Hin).
  exists out. split; [exact Eo|]. split; [exact Nd|]. intros Ha k. rewrite Hin. split.
  - intros (m & b & Hm & R). exists m, b. split; [lia|exact R].
  - intros (m & b & Hm & Hk & Hb & Ho). exists m, b. split; [|auto]. pose proof (overlaps_key dim b q (ax t) Ha Ho) as K. apply (Hloc m b Hb) in K. lia.
Qed.

Lemma self_all_ok dim prims t : good prims t -> (ax t < dim)%nat -> forall nodes, NoDup nodes -> (forall i, In i nodes -> (i < length (bvs t))%nat) ->
  exists out, self_all dim t nodes = Some out /\ NoDup out /\
   forall p k, In (p, k) out <-> exists i m q b, In i nodes /\ (i < m)%nat /\ nth_error (aux t) i = Some p /\ nth_error (bvs t) i = Some q /\
      nth_error (aux t) m = Some k /\ nth_error (bvs t) m = Some b /\ overlaps dim b q = true.
Proof.
  intros G Ha. destruct (good_len _ _ G) as [La Lb]. pose proof (good_nodup _ _ G) as Nx. rewrite NoDup_nth_error in Nx.
  induction nodes as [|i r IH]; intros Nn Hn; cbn [self_all].
  - exists []. split; [reflexivity|]. split; [constructor|]. intros p k. split; [contradiction|]. intros (i & m & q & b & [] & _).
  - inversion Nn as [|? ? Ni Nr]; subst. destruct (IH Nr ltac:(intros; apply Hn; right; assumption)) as (rest & Er & Nrest & Hrest).
    pose proof (Hn i (or_introl eq_refl)) as Hi.
    destruct (nth_error (aux t) i) as [p|] eqn:Ep; [|apply nth_error_None in Ep; lia].
    destruct (nth_error (bvs t) i) as [q|] eqn:Eq; [|apply nth_error_None in Eq; lia].
    destruct (self_ok dim prims t i q G Eq) as (l & El & Nl & Hl). specialize (Hl Ha). rewrite El, Er. cbn [bind].
    eexists. split; [reflexivity|]. split.
    + clear - Nl Nrest Hrest Ni Nx Ep. induction l as [|k l IHl]; [exact Nrest|]. inversion Nl; subst. cbn [map app]. constructor; [|auto].
      rewrite in_app_iff. intros [Hm|Hr].
      * apply in_map_iff in Hm. destruct Hm as (k' & E & Hk'). injection E as ->. contradiction.
      * apply Hrest in Hr. destruct Hr as (j & _ & _ & _ & Hj & _ & Hpj & _).
        assert (i = j) by (apply Nx; [apply nth_error_Some; congruence|congruence]). subst. contradiction.
    + intros p' k. rewrite in_app_iff, in_map_iff. split.
      * intros [(k' & E & Hk)|Hr].
        -- injection E as <- <-. apply Hl in Hk. destruct Hk as (m & b & Hm & R1 & R2 & R3). exists i, m, q, b. repeat split; auto. left; reflexivity.
        -- apply Hrest in Hr. destruct Hr as (j & m & q' & b & Hj & R). exists j, m, q', b. split; [right; exact Hj|exact R].
      * intros (j & m & q' & b & [<-|Hj] & Hm & R1 & R2 & R3 & R4 & R5).
        -- left. exists k. split; [congruence|]. apply Hl. exists m, b. assert (q' = q) by congruence. subst. repeat split; auto.
        -- right. apply Hrest. exists j, m, q', b. repeat split; auto.
Qed.

Lemma pairs_ok dim prims t : good prims t -> (ax t < dim)%nat -> Forall (nonempty dim) prims ->
  exists out, self_all dim t (seq 0 (length prims)) = Some out /\ exact_pairs dim prims out.
Proof.
  intros G Ha Nb. rewrite Forall_forall in Nb. destruct (good_len _ _ G) as [La Lb]. pose proof (good_nodup _ _ G) as Nx. rewrite NoDup_nth_error in Nx.
  destruct (self_all_ok dim prims t G Ha (seq 0 (length prims)) (seq_NoDup _ _)) as (out & Eo & Nd & Hin).
  { intros i Hi. apply in_seq in Hi. lia. }
  exists out. split; [exact Eo|].
  assert (Inj : forall i j k, nth_error (aux t) i = Some k -> nth_error (aux t) j = Some k -> i = j) by (intros i j k Hi Hj; apply Nx; [apply nth_error_Some; congruence|congruence]).
  split; [exact Nd|split].
  - intros p k H. apply Hin in H. destruct H as (i & m & q & b & Hi & Hm & R1 & R2 & R3 & R4 & R5). split.
    + intros ->. pose proof (Inj _ _ _ R1 R3). lia.
    + pose proof (good_back _ _ _ _ _ G R1 R2) as Hp. pose proof (good_back _ _ _ _ _ G R3 R4) as Hk.
      exists q, b. split; [exact Hp|]. split; [exact Hk|].
      apply overlaps_meet; [apply Nb; exact (nth_error_In _ _ Hp)|apply Nb; exact (nth_error_In _ _ Hk)|]. rewrite overlaps_sym. exact R5.
  - intros p k a b Hne Hp Hk Hmeet. destruct (good_at _ _ _ _ G Hp) as (i & Ri & Si). destruct (good_at _ _ _ _ G Hk) as (j & Rj & Sj).
    apply overlaps_meet in Hmeet; [|apply Nb; exact (nth_error_In _ _ Hp)|apply Nb; exact (nth_error_In _ _ Hk)].
    assert (Hi : (i < length (aux t))%nat) by (apply nth_error_Some; congruence). assert (Hj : (j < length (aux t))%nat) by (apply nth_error_Some; congruence).
    assert (Hij : i <> j) by (intros ->; congruence).
    assert (Ex : forall x y i j, nth_error (aux t) i = Some x -> nth_error (aux t) j = Some y -> In (x, y) out -> (i < j)%nat).
    { intros x y i0 j0 Hx Hy H. apply Hin in H. destruct H as (i' & m & q' & b' & _ & Hm & R1 & _ & R3 & _).
      rewrite (Inj _ _ _ Hx R1), (Inj _ _ _ Hy R3). exact Hm. }
    destruct (Nat.lt_trichotomy i j) as [Hlt|[?|Hlt]]; [left|contradiction|right].
    + split; [|intro H; pose proof (Ex _ _ _ _ Rj Ri H); lia]. apply Hin. exists i, j, a, b. rewrite overlaps_sym. repeat split; auto. apply in_seq; lia.
    + split; [|intro H; pose proof (Ex _ _ _ _ Ri Rj H); lia]. apply Hin. exists j, i, b, a. repeat split; auto. apply in_seq; lia.
Qed.

Lemma pick_axis_lt dim prims axis : (0 < dim)%nat -> (pick_axis dim prims axis < dim)%nat.
Proof.
  intro Hd. unfold pick_axis. destruct ((0 <=? axis) && (axis <? Z.of_nat dim)) eqn:E; [lia|].
  assert (H : forall l (s : nat * Z), (fst s < dim)%nat -> (forall d, In d l -> (d < dim)%nat) ->
    (fst (fold_left (fun ad d => let t := (ghigh prims d - glow prims d)%Z in if (snd ad <? t)%Z then (d, t) else ad) l s) < dim)%nat).
  { induction l as [|d l IH]; intros s Hs Hl; [exact Hs|]. cbn [fold_left]. apply IH; [|intros; apply Hl; right; assumption].
    cbv zeta. destruct (snd s <? _)%Z; [apply Hl; left; reflexivity|exact Hs]. }
  apply H; [exact Hd|]. intros d Hi. apply in_seq in Hi. lia.
Qed.
Lemma build_axis dim dsort prims axis t : (0 < dim)%nat -> build dim dsort prims axis = Some t -> (ax t < dim)%nat.
Proof.
  unfold build. intros Hd H. destruct (gather prims _) as [l|]; [|discriminate]. cbn [bind] in H. injection H as <-. cbn [ax]. apply pick_axis_lt. exact Hd.
Qed.

Lemma live_good dim dsort prims t : (0 < dim)%nat -> sorts dsort -> live dim dsort prims t -> good prims t /\ (ax t < dim)%nat.
Proof.
  intros Hd Hs. induction 1 as [prims axis t B|prims0 t prims tmp t' L [IH Ia] Hl Ht R].
  - destruct (build_good dim dsort prims axis Hs) as (t' & E & G). rewrite E in B. injection B as <-. split; [exact G|exact (build_axis _ _ _ _ _ Hd E)].
  - destruct (refit_good prims0 t prims tmp IH Hl Ht) as (t2 & E & G & Ea). rewrite E in R. injection R as <-. split; [exact G|]. rewrite Ea. exact Ia.
Qed.
Lemma build_total dim dsort prims axis : sorts dsort -> exists t, build dim dsort prims axis = Some t.
Proof. intro H. destruct (build_good dim dsort prims axis H) as (t & E & _). eauto. Qed.
Lemma refit_total dim dsort prims0 t prims tmp : (0 < dim)%nat -> sorts dsort -> live dim dsort prims0 t -> length prims = length prims0 ->
  length tmp = length prims -> exists t', refit t prims tmp = Some t'.
Proof. intros Hd Hs L Hl Ht. destruct (live_good _ _ _ _ Hd Hs L) as [G _]. destruct (refit_good prims0 t prims tmp G Hl Ht) as (t' & E & _). eauto. Qed.
Lemma live_iter dim dsort prims t q : (0 < dim)%nat -> sorts dsort -> live dim dsort prims t -> Forall (nonempty dim) prims -> nonempty dim q ->
  exists out, iter_neighbors dim t q = Some out /\ exact_hits dim prims q out.
Proof. intros Hd Hs L. destruct (live_good _ _ _ _ Hd Hs L) as [G A]. apply iter_ok; assumption. Qed.
Lemma live_pairs dim dsort prims t : (0 < dim)%nat -> sorts dsort -> live dim dsort prims t -> Forall (nonempty dim) prims ->
  exists out, self_all dim t (seq 0 (length prims)) = Some out /\ exact_pairs dim prims out.
Proof. intros Hd Hs L. destruct (live_good _ _ _ _ Hd Hs L) as [G A]. apply pairs_ok; assumption. Qed.
Lemma live_locate dim dsort prims t v : (0 < dim)%nat -> sorts dsort -> live dim dsort prims t -> exists r, locate t v = Some r /\
  -1 <= r < Z.of_nat (length prims) /\ forall i b, nth_error (bvs t) i = Some b -> (Z.of_nat i <= r <-> bmin b (ax t) <= v).
Proof.
  intros Hd Hs L. destruct (live_good _ _ _ _ Hd Hs L) as [G A]. destruct (locate_ok prims t v G) as (r & E & H1 & H2).
  destruct (good_len _ _ G) as [_ Lb]. rewrite Lb in H1. eauto.
Qed.
