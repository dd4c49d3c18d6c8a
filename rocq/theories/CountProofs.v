From Verif Require Import Prelude UptrModel UptrProofs SortModel RadixModel CountModel.
From Verif Require RadixProofs BhtProofs4.

(** the offsets of the bins (same definition as in RadixModel) and the lemmas of RadixProofs for items of any type *)
Section C.
Context {E : Type}.
Variable dig : E -> nat.
Definition cnt (d : nat) (l : list E) : nat := length (filter (fun e => dig e =? d) l).
Definition bins (bc : nat) (l : list E) : list E := flat_map (fun d => filter (fun e => dig e =? d) l) (seq 0 bc).
Lemma cnt_app d l r : cnt d (l ++ r) = cnt d l + cnt d r.
Proof. unfold cnt. rewrite filter_app, app_length. reflexivity. Qed.
Lemma cnt_one d e : cnt d [e] = if dig e =? d then 1 else 0.
Proof. unfold cnt. cbn. destruct (dig e =? d); reflexivity. Qed.

(** where each element goes, given the first free slot of each bin *)
Fixpoint places (base : nat -> nat) (l : list E) : list (nat * E) :=
  match l with [] => [] | e :: r => (base (dig e), e) :: places (fset base (dig e) (S (base (dig e)))) r end.
Lemma places_ext l : forall b b', (forall d, b d = b' d) -> places b l = places b' l.
Proof.
  induction l as [|e l IH]; intros b b' H; cbn; [reflexivity|]. rewrite H. f_equal. apply IH. intro d. unfold fset. destruct (d =? dig e); [reflexivity|apply H].
Qed.
Lemma places_app l r : forall b, places b (l ++ r) = places b l ++ places (fun d => b d + cnt d l) r.
Proof.
  induction l as [|e l IH]; intro b; cbn [app places].
  - apply places_ext. intro d. unfold cnt; cbn. lia.
  - cbn [app]. f_equal. rewrite IH. f_equal. apply places_ext. intro d. change (e :: l) with ([e] ++ l). rewrite cnt_app, cnt_one. unfold fset.
    destruct (Nat.eqb_spec d (dig e)) as [->|Ne]; [rewrite Nat.eqb_refl; lia|]. destruct (Nat.eqb_spec (dig e) d); [congruence|]. lia.
Qed.
Lemma in_places l p e : forall base, In (p, e) (places base l) <-> exists pre post, l = pre ++ e :: post /\ p = base (dig e) + cnt (dig e) pre.
Proof.
  intro base. split.
  - revert base. induction l as [|x l IH]; intros base H; [destruct H|]. cbn in H. destruct H as [H|H].
    + injection H as <- <-. exists [], l. unfold cnt; cbn. split; [reflexivity|lia].
    + apply IH in H as (pre & post & -> & ->). exists (x :: pre), post. split; [reflexivity|]. change (x :: pre) with ([x] ++ pre). rewrite cnt_app, cnt_one. unfold fset.
      destruct (Nat.eqb_spec (dig e) (dig x)) as [Q|Q]; [rewrite <- Q, Nat.eqb_refl; lia|]. destruct (Nat.eqb_spec (dig x) (dig e)); [congruence|]. lia.
  - intros (pre & post & -> & ->). rewrite places_app. apply in_app_iff. right. left. reflexivity.
Qed.

(** the bins list *)
Lemma bins_split bc d l : d < bc -> exists post, bins bc l = bins d l ++ filter (fun e => dig e =? d) l ++ post.
Proof.
  intro H. unfold bins. exists (flat_map (fun d => filter (fun e => dig e =? d) l) (seq (S d) (bc - S d))).
  replace (seq 0 bc) with (seq 0 d ++ [d] ++ seq (S d) (bc - S d)).
  - rewrite !flat_map_app. cbn [flat_map]. rewrite app_nil_r. reflexivity.
  - cbn [app]. replace bc with (d + S (bc - S d)) at 2 by lia. rewrite seq_app. reflexivity.
Qed.
Lemma bins_length d l : length (bins d l) = offsets (fun i => cnt i l) d.
Proof.
  induction d as [|d IH]; [reflexivity|]. unfold bins in *. replace (S d) with (d + 1) by lia. rewrite seq_app, flat_map_app, app_length, IH. cbn [seq flat_map].
  rewrite app_nil_r. rewrite Nat.add_1_r. reflexivity.
Qed.
Lemma bins_nth bc l pre e post : (forall x, In x l -> dig x < bc) -> l = pre ++ e :: post ->
  nth_error (bins bc l) (offsets (fun i => cnt i l) (dig e) + cnt (dig e) pre) = Some e.
Proof.
  intros H El. assert (Hd : dig e < bc) by (apply H; rewrite El; apply in_app_iff; right; left; reflexivity).
  destruct (bins_split bc (dig e) l Hd) as [q ->]. rewrite nth_error_app2 by (rewrite bins_length; lia). rewrite bins_length.
  replace (_ + cnt (dig e) pre - _) with (cnt (dig e) pre) by lia. rewrite El, filter_app. cbn [filter]. rewrite Nat.eqb_refl. rewrite <- app_assoc. unfold cnt.
  rewrite nth_error_app2 by lia. rewrite Nat.sub_diag. reflexivity.
Qed.
Lemma bins_perm bc l : (forall x, In x l -> dig x < bc) -> Permutation l (bins bc l).
Proof.
  induction l as [|e l IH]; intro H.
  - unfold bins. induction (seq 0 bc); [constructor|exact IHl].
  - apply Permutation_trans with (e :: bins bc l); [constructor; apply IH; intros; apply H; right; assumption|].
    assert (Hd : dig e < bc) by (apply H; left; reflexivity).
    assert (B : bins bc (e :: l) = bins (dig e) l ++ (e :: filter (fun x => dig x =? dig e) l) ++ flat_map (fun d => filter (fun x => dig x =? d) l) (seq (S (dig e)) (bc - S (dig e)))).
    { unfold bins. replace (seq 0 bc) with (seq 0 (dig e) ++ [dig e] ++ seq (S (dig e)) (bc - S (dig e))).
      - rewrite !flat_map_app. f_equal; [|f_equal].
        + apply RadixProofs.flat_map_ext'. intros d Hd'. apply in_seq in Hd'. cbn [filter]. destruct (Nat.eqb_spec (dig e) d); [lia|reflexivity].
        + cbn [flat_map filter]. rewrite Nat.eqb_refl, app_nil_r. reflexivity.
        + apply RadixProofs.flat_map_ext'. intros d Hd'. apply in_seq in Hd'. cbn [filter]. destruct (Nat.eqb_spec (dig e) d); [lia|reflexivity].
      - cbn [app]. replace bc with (dig e + S (bc - S (dig e))) at 2 by lia. rewrite seq_app. reflexivity. }
    rewrite B. assert (B' : bins bc l = bins (dig e) l ++ filter (fun x => dig x =? dig e) l ++ flat_map (fun d => filter (fun x => dig x =? d) l) (seq (S (dig e)) (bc - S (dig e)))).
    { unfold bins. replace (seq 0 bc) with (seq 0 (dig e) ++ [dig e] ++ seq (S (dig e)) (bc - S (dig e))).
      - rewrite !flat_map_app. cbn [flat_map]. rewrite app_nil_r. reflexivity.
      - cbn [app]. replace bc with (dig e + S (bc - S (dig e))) at 2 by lia. rewrite seq_app. reflexivity. }
    rewrite B'. cbn [app]. apply Permutation_middle.
Qed.

(** any order of writes that all agree with a target list and cover it *)
Lemma run_agree (T : list E) ws : forall next, length next = length T -> (forall p e, In (p, e) ws -> nth_error T p = Some e) ->
  exists next', run_stores next ws = Some next' /\ length next' = length T /\
    forall p, (nth_error next p = nth_error T p \/ In p (map fst ws)) -> nth_error next' p = nth_error T p.
Proof.
  unfold run_stores. induction ws as [|[p e] ws IH]; intros next Ln H.
  - exists next. split; [reflexivity|]. split; [exact Ln|]. intros p [Q|[]]; exact Q.
  - cbn [fold_left]. unfold store at 2. cbn [bind fst snd]. pose proof (H p e (or_introl eq_refl)) as Hp.
    assert (Lp : p < length next) by (rewrite Ln; eapply nth_error_some_lt; exact Hp).
    destruct (upd_some next p e Lp) as [n1 E1]. rewrite E1. pose proof (upd_length _ _ _ _ E1) as L1.
    destruct (IH n1) as (n' & E' & L' & V'); [lia|intros; apply H; right; assumption|]. exists n'. split; [exact E'|]. split; [exact L'|].
    intros q Hq. apply V'. destruct (Nat.eq_dec q p) as [->|Ne]; [left; rewrite (upd_nth_eq _ _ _ _ E1); auto|].
    destruct Hq as [Hq|[Hq|Hq]]; [left|cbn in Hq; congruence|right; exact Hq]. rewrite (upd_nth_neq _ _ _ _ _ E1) by auto. exact Hq.
Qed.
Lemma offset_find f : forall bc p, p < offsets f bc -> exists d, d < bc /\ offsets f d <= p < offsets f d + f d.
Proof.
  induction bc as [|bc IH]; intros p H; cbn in H; [lia|]. destruct (Nat.lt_ge_cases p (offsets f bc)) as [L|L].
  - destruct (IH p L) as (d & Hd & R). exists d. split; [lia|exact R].
  - exists bc. split; [lia|lia].
Qed.
Lemma nth_occ d l : forall k, k < cnt d l -> exists pre e post, l = pre ++ e :: post /\ dig e = d /\ cnt d pre = k.
Proof.
  induction l as [|x l IH]; intros k H; [unfold cnt in H; cbn in H; lia|]. change (x :: l) with ([x] ++ l) in H. rewrite cnt_app, cnt_one in H.
  destruct (Nat.eqb_spec (dig x) d) as [Q|Q].
  - destruct k as [|k]; [exists [], x, l; auto|]. destruct (IH k ltac:(lia)) as (pre & e & post & -> & Ed & Ec). exists (x :: pre), e, post. split; [reflexivity|]. split; [exact Ed|].
    change (x :: pre) with ([x] ++ pre). rewrite cnt_app, cnt_one, Ec. destruct (Nat.eqb_spec (dig x) d); [lia|contradiction].
  - destruct (IH k ltac:(lia)) as (pre & e & post & -> & Ed & Ec). exists (x :: pre), e, post. split; [reflexivity|]. split; [exact Ed|].
    change (x :: pre) with ([x] ++ pre). rewrite cnt_app, cnt_one, Ec. destruct (Nat.eqb_spec (dig x) d); [contradiction|lia].
Qed.
Lemma run_places bc l next order : (forall x, In x l -> dig x < bc) -> length next = length l ->
  Permutation order (places (offsets (fun i => cnt i l)) l) -> exists next', run_stores next order = Some next' /\ next' = bins bc l.
Proof.
  intros H Ln P. pose proof (Permutation_length (bins_perm bc l H)) as LB.
  destruct (run_agree (bins bc l) order next) as (n' & E' & L' & V'); [lia| |].
  - intros p e Hp. apply (Permutation_in _ P) in Hp. apply in_places in Hp as (pre & post & El & ->). eapply bins_nth; eassumption.
  - exists n'. split; [exact E'|]. apply nth_error_ext. intro p. destruct (Nat.lt_ge_cases p (length (bins bc l))) as [Lp|Lp].
    2: { rewrite !(proj2 (nth_error_None _ _)) by lia. reflexivity. }
    apply V'. right. apply (Permutation_in _ (Permutation_map fst (Permutation_sym P))).
    rewrite bins_length in Lp. destruct (offset_find (fun i => cnt i l) bc p Lp) as (d & Hd & R).
    destruct (nth_occ d l (p - offsets (fun i => cnt i l) d)) as (pre & e & post & El & Ed & Ec); [lia|].
    apply in_map_iff. exists (p, e). split; [reflexivity|]. apply in_places. exists pre, post. split; [exact El|]. rewrite Ed, Ec. lia.
Qed.

(** a pass: skipping or scattering both give the bins *)

Lemma places_map base l : forall b, (forall d, b d = base d) -> map snd (places b l) = l.
Proof. intros b _. revert b. induction l as [|x l IH]; intro b; cbn; [reflexivity|]. f_equal. apply IH. Qed.

Lemma nth_escan l : forall acc i, i < length l -> nth_error (escan acc l) i = Some (acc + offsets (fun d => nth d l 0) i).
Proof.
  induction l as [|c l IH]; intros acc i Hi; cbn [length] in Hi; [lia|]. destruct i as [|i]; cbn [escan nth_error].
  - cbn. f_equal. lia.
  - rewrite IH by lia. f_equal. rewrite <- Nat.add_assoc. f_equal. clear. induction i as [|i IHi]; cbn; [lia|]. cbn in IHi. rewrite Nat.add_assoc, IHi. reflexivity.
Qed.
Lemma escan_length l : forall acc, length (escan acc l) = length l.
Proof. induction l; intro acc; cbn; auto. Qed.

Lemma tickets_ok ord : forall cnts, (forall x, In x ord -> dig x < length cnts) ->
  exists cs ts, tickets dig cnts ord = Some (cs, ts) /\ length cs = length cnts /\ (forall d, d < length cnts -> nth d cs 0 = nth d cnts 0 + cnt d ord) /\
    forall ptrs base, length ptrs = length cnts -> (forall d, d < length ptrs -> nth_error ptrs d = Some (base d)) ->
      targets dig ptrs ts = Some (places (fun d => base d + nth d cnts 0) ord).
Proof.
  induction ord as [|x r IH]; intros cnts H.
  - exists cnts, []. split; [reflexivity|]. split; [reflexivity|]. split; [intros; unfold cnt; cbn; lia|]. intros; reflexivity.
  - pose proof (H x (or_introl eq_refl)) as Hx. cbn [tickets]. destruct (nth_error_lt_some cnts (dig x) Hx) as [c Hc]. rewrite Hc. cbn [bind].
    destruct (upd_some cnts (dig x) (S c) Hx) as [cnts' U]. rewrite U. cbn [bind].
    pose proof (upd_length _ _ _ _ U) as LU.
    destruct (IH cnts') as (cs & ts & Et & Lc & Hn & Ht); [intros y Hy; rewrite LU; apply H; right; exact Hy|]. rewrite Et. cbn [bind].
    assert (Nth : forall d, d < length cnts -> nth d cnts' 0 = nth d cnts 0 + (if dig x =? d then 1 else 0)).
    { intros d Hd. destruct (Nat.eqb_spec (dig x) d) as [<-|Ne].
      - rewrite (nth_error_nth _ _ 0 (upd_nth_eq _ _ _ _ U)), (nth_error_nth _ _ 0 Hc). lia.
      - destruct (nth_error_lt_some cnts d Hd) as [y Hy]. rewrite (nth_error_nth _ _ 0 Hy). rewrite (nth_error_nth cnts' d 0 (x := y)); [lia|]. rewrite (upd_nth_neq _ _ _ _ _ U); auto. }
    exists cs, ((x, c) :: ts). split; [reflexivity|]. split; [lia|]. split.
    + intros d Hd. rewrite Hn by lia. rewrite Nth by lia. change (x :: r) with ([x] ++ r). rewrite cnt_app, cnt_one. lia.
    + intros ptrs base Lp Hp. cbn [targets places]. rewrite (Hp (dig x)) by lia. cbn [bind]. rewrite (Ht ptrs base) by (auto; lia). cbn [bind]. f_equal. f_equal.
      * rewrite (nth_error_nth _ _ 0 Hc). reflexivity.
      * rewrite LU in *. assert (Ex : forall l b b', (forall d, d < length cnts -> b d = b' d) -> (forall y, In y l -> dig y < length cnts) -> places b l = places b' l).
        { clear. induction l as [|y l IHl]; intros b b' Hb Hy; cbn; [reflexivity|]. rewrite Hb by (apply Hy; left; reflexivity). f_equal. apply IHl; [|intros z Hz; apply Hy; right; exact Hz].
          intros d Hd. unfold fset. destruct (d =? dig y); [reflexivity|apply Hb; exact Hd]. }
        apply Ex; [|intros y Hy; apply H; right; exact Hy]. intros d Hd. rewrite Nth by exact Hd. unfold fset. rewrite (Nat.eqb_sym d). destruct (Nat.eqb_spec (dig x) d) as [<-|Ne]; lia.
Qed.

(** the whole counting sort from zero counters: the counts, the starts, and the result of the stores in any order *)
Lemma count_sort_ok bc ord : (forall x, In x ord -> dig x < bc) ->
  exists cs ts ws, tickets dig (repeat 0 bc) ord = Some (cs, ts) /\ length cs = bc /\ (forall d, d < bc -> nth_error cs d = Some (cnt d ord)) /\
    (forall d, d < bc -> nth_error (escan 0 cs) d = Some (offsets (fun i => cnt i ord) d)) /\
    targets dig (escan 0 cs) ts = Some ws /\ map snd ws = ord /\
    (forall p e, In (p, e) ws -> nth_error (bins bc ord) p = Some e) /\ (forall p, p < length ord -> In p (map fst ws)).
Proof.
  intros H. destruct (tickets_ok ord (repeat 0 bc)) as (cs & ts & Et & Lc & Hn & Ht); [rewrite repeat_length; exact H|]. rewrite repeat_length in *.
  assert (Z0 : forall d, nth d (repeat 0 bc) 0 = 0) by (intro d; apply nth_repeat).
  assert (Of : forall d, d <= bc -> offsets (fun i => nth i cs 0) d = offsets (fun i => cnt i ord) d).
  { induction d as [|d IH]; intros Hd; cbn; [reflexivity|]. rewrite IH, Hn, Z0 by lia. reflexivity. }
  assert (Es : forall d, d < bc -> nth_error (escan 0 cs) d = Some (offsets (fun i => cnt i ord) d)).
  { intros d Hd. rewrite nth_escan by lia. cbn [Nat.add]. rewrite Of by lia. reflexivity. }
  exists cs, ts. eexists. split; [exact Et|]. split; [exact Lc|]. split.
  { intros d Hd. rewrite (nth_error_nth' cs 0) by lia. rewrite Hn, Z0 by exact Hd. reflexivity. }
  split; [exact Es|]. split.
  { apply (Ht (escan 0 cs) (offsets (fun i => cnt i ord))); rewrite escan_length; [lia|]. intros d Hd. apply Es. lia. }
  assert (P0 : places (fun d => offsets (fun i => cnt i ord) d + nth d (repeat 0 bc) 0) ord = places (offsets (fun i => cnt i ord)) ord) by (apply places_ext; intro d; rewrite Z0; lia).
  rewrite P0. split; [eapply places_map; reflexivity|]. split.
  - intros p e Hp. apply in_places in Hp as (pre & post & El & ->). eapply bins_nth; eassumption.
  - intros p Lp. rewrite (Permutation_length (bins_perm bc ord H)), bins_length in Lp. destruct (offset_find (fun i => cnt i ord) bc p Lp) as (d & Hd & R).
    destruct (nth_occ d ord (p - offsets (fun i => cnt i ord) d)) as (pre & e & post & El & Ed & Ec); [lia|].
    apply in_map_iff. exists (p, e). split; [reflexivity|]. apply in_places. exists pre, post. split; [exact El|]. rewrite Ed, Ec. lia.
Qed.
Lemma offsets_total bc ord : (forall x, In x ord -> dig x < bc) -> offsets (fun i => cnt i ord) bc = length ord.
Proof. intro H. rewrite <- bins_length. symmetry. apply Permutation_length. apply bins_perm. exact H. Qed.
(** a segment of the result *)
Lemma bins_segment bc ord d : d < bc -> firstn (cnt d ord) (skipn (offsets (fun i => cnt i ord) d) (bins bc ord)) = filter (fun e => dig e =? d) ord.
Proof.
  intro H. destruct (bins_split bc d ord H) as (post & E'). rewrite E'. rewrite <- bins_length. rewrite skipn_app, skipn_all, Nat.sub_diag. cbn [skipn app].
  unfold cnt. rewrite firstn_app, firstn_all, Nat.sub_diag. cbn. apply app_nil_r.
Qed.
End C.

(** stores that agree with T and cover it turn any array of that length into T; a longer array keeps its tail *)
Lemma run_stores_app {F} (ws : list (nat * F)) : forall a b r, run_stores a ws = Some r -> run_stores (a ++ b) ws = Some (r ++ b).
Proof.
  unfold run_stores. assert (None_stuck : forall ws : list (nat * F), fold_left store ws None = None) by (clear; induction ws; cbn; auto).
  induction ws as [|[p x] ws IH]; intros a b r H; cbn in *; [congruence|].
  destruct (upd a p x) as [a'|] eqn:U; [|rewrite None_stuck in H; discriminate].
  assert (U' : upd (a ++ b) p x = Some (a' ++ b)).
  { clear - U. revert p a' U. induction a as [|h t IH]; intros p a' U; [destruct p; discriminate|]. destruct p as [|p]; cbn in *; [inversion U; reflexivity|].
    destruct (upd t p x) as [t'|] eqn:E; [|discriminate]. cbn in U. rewrite (IH _ _ E). cbn. inversion U. reflexivity. }
  rewrite U'. apply IH. exact H.
Qed.
Lemma stores_cover {F} (T : list F) ws a : length T <= length a -> (forall p e, In (p, e) ws -> nth_error T p = Some e) ->
  (forall p, p < length T -> In p (map fst ws)) -> run_stores a ws = Some (T ++ skipn (length T) a).
Proof.
  intros L A C. rewrite <- (firstn_skipn (length T) a) at 1. apply run_stores_app.
  destruct (run_agree T ws (firstn (length T) a)) as (n & E' & Ln & V); [rewrite firstn_length; lia|exact A|]. rewrite E'. f_equal.
  apply nth_error_ext. intro p. destruct (Nat.lt_ge_cases p (length T)) as [Lp|Lp]; [apply V; right; auto|]. rewrite !(proj2 (nth_error_None _ _)) by lia. reflexivity.
Qed.
(** the stores of g(item), in any order *)
Lemma stores_map {E F} (g : E -> F) (T : list E) (ws : list (nat * E)) order a : length T <= length a -> (forall p e, In (p, e) ws -> nth_error T p = Some e) ->
  (forall p, p < length T -> In p (map fst ws)) -> Permutation order (map (fun w => (fst w, g (snd w))) ws) -> run_stores a order = Some (map g T ++ skipn (length T) a).
Proof.
  intros L A C P. rewrite <- (map_length g T). apply stores_cover; rewrite ?map_length; [exact L| |].
  - intros p e Hp. apply (Permutation_in _ P) in Hp. apply in_map_iff in Hp as ([q x] & Eq & Hq). inversion Eq; subst. apply map_nth_error. eapply A. exact Hq.
  - intros p Lp. apply (Permutation_in _ (Permutation_map fst (Permutation_sym P))). rewrite map_map. cbn. apply C. exact Lp.
Qed.
Lemma nth_skipn {A} n (l : list A) i : nth_error (skipn n l) i = nth_error l (n + i).
Proof. revert l. induction n as [|n IH]; intro l; [reflexivity|]. destruct l; cbn; [destruct i; reflexivity|]. apply IH. Qed.
(** storing a block of consecutive slots in any order *)
Lemma run_block {F} (xs : list F) : forall a c order, c + length xs <= length a -> Permutation order (combine (seq c (length xs)) xs) ->
  run_stores a order = Some (firstn c a ++ xs ++ skipn (c + length xs) a).
Proof.
  intros a c order L P.
  assert (Nth : forall p e, In (p, e) order <-> c <= p /\ nth_error xs (p - c) = Some e).
  { intros p e. assert (I : In (p, e) order <-> In (p, e) (combine (seq c (length xs)) xs)) by (split; apply Permutation_in; [|apply Permutation_sym]; exact P). rewrite I. clear.
    revert c. induction xs as [|x xs IH]; intro c; cbn [length seq combine].
    - split; [intros []|]. intros [_ H]. destruct (p - c); discriminate.
    - cbn [In]. rewrite IH. split.
      + intros [H|[H1 H2]]; [inversion H; subst; rewrite Nat.sub_diag; auto|]. split; [lia|]. replace (p - c) with (S (p - S c)) by lia. exact H2.
      + intros [H1 H2]. destruct (Nat.eq_dec p c) as [->|Ne]; [rewrite Nat.sub_diag in H2; inversion H2; auto|]. right. split; [lia|]. replace (p - c) with (S (p - S c)) in H2 by lia. exact H2. }
  (* complete with the unchanged prefix and use the covering lemma on the block *)
  assert (ND : NoDup (map fst order)).
  { apply (Permutation_NoDup (Permutation_map fst (Permutation_sym P))). clear. revert c. induction xs as [|x xs IH]; intro c; cbn; [constructor|]. constructor; [|apply IH].
    intro H. apply in_map_iff in H as ([p y] & E & H). cbn in E. subst. apply in_combine_l in H. apply in_seq in H. lia. }
  assert (Len : forall (a0 : list F) (ws : list (nat * F)), Forall (fun w => fst w < length a0) ws -> exists r, run_stores a0 ws = Some r /\ length r = length a0 /\
     (NoDup (map fst ws) -> forall p e, In (p, e) ws -> nth_error r p = Some e) /\ forall p, ~ In p (map fst ws) -> nth_error r p = nth_error a0 p).
  { clear. intros a0 ws. revert a0. induction ws as [|[p x] ws IH]; intros a0 F0; cbn.
    - exists a0. repeat split; auto. intros _ p e [].
    - inversion F0; subst. cbn in *. destruct (upd_some a0 p x H1) as [a' U]. change (run_stores a0 ((p, x) :: ws)) with (fold_left store ws (upd a0 p x)). rewrite U.
      destruct (IH a') as (r & E & Lr & A & B). { rewrite (upd_length _ _ _ _ U). exact H2. }
      exists r. split; [exact E|]. split; [rewrite Lr; eapply upd_length; eauto|]. split.
      + intros N. inversion N; subst. intros q e [Q|Q]; [inversion Q; subst; rewrite B by assumption; eapply upd_nth_eq; eauto|apply A; auto].
      + intros q N. rewrite B by tauto. apply (upd_nth_neq _ _ _ _ _ U). intro; subst; tauto. }
  destruct (Len a order) as (r & E & Lr & A & B).
  { apply Forall_forall. intros [p e] Hp. cbn. apply Nth in Hp as [H1 H2]. apply nth_error_some_lt in H2. lia. }
  rewrite E. f_equal. apply nth_error_ext. intro p.
  assert (Lf : length (firstn c a) = c) by (rewrite firstn_length; lia).
  destruct (Nat.lt_ge_cases p c) as [C|C].
  - rewrite nth_error_app1 by lia. rewrite BhtProofs4.nth_firstn by lia. apply B. intro H. apply in_map_iff in H as ([q e] & Eq & H). cbn in Eq. subst. apply Nth in H. lia.
  - rewrite nth_error_app2 by lia. rewrite Lf. destruct (Nat.lt_ge_cases (p - c) (length xs)) as [C2|C2].
    + rewrite nth_error_app1 by exact C2. destruct (nth_error_lt_some xs (p - c) C2) as [e He]. rewrite He. apply A; [exact ND|]. apply Nth. auto.
    + rewrite nth_error_app2 by exact C2. rewrite nth_skipn. replace (c + length xs + (p - c - length xs)) with p by lia. apply B. intro H. apply in_map_iff in H as ([q e] & Eq & H). cbn in Eq. subst. apply Nth in H as [_ H]. apply nth_error_some_lt in H. lia.
Qed.
