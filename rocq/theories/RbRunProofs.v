(** Every history of operations refines the finite map. *)
From Verif Require Import Prelude RbModel RbSpec RbTree RbHeap RbHeap2 RbHeap3 RbHeap4 RbHeap5 RbHeap6 RbOps RbOps2 RbOps3 RbIter RbRun.

Section H.
Variables (K V : Type) (eqb ltb : K -> K -> bool) (dk : K) (dv : V).
Hypothesis ord : total_order K eqb ltb.
Notation st := (RbModel.st K V).
Notation elems := (elems K V).
Notation Inv := (Inv K V ltb dk dv).
Notation look := (look K V eqb).
Notation fid := (fid K V).
Notation lid := (lid K V).
Notation srt := (srt K V ltb).
Notation ekey := (ekey K V).
Notation entries := (list (entry K V)).

Lemma adj_srt (l : entries) : srt l -> forall p k1 v1 k2 v2 q, map snd l = p ++ (k1, v1) :: (k2, v2) :: q -> ltb k1 k2 = true.
Proof.
  induction l as [|[i [k v]] l IH]; intros Hs p k1 v1 k2 v2 q E; [destruct p; discriminate|]. cbn [RbOps3.srt] in Hs. destruct Hs as [H1 Hs]. destruct p as [|e p]; cbn in E.
  - injection E as -> -> E. destruct l as [|[j [k' v']] l]; [discriminate|]. cbn in E. injection E as -> -> E. exact (H1 _ (or_introl eq_refl)).
  - injection E as _ E. eapply IH; eassumption.
Qed.
Lemma lists_srt (l : entries) : srt l -> lists K V ltb (look l) (map snd l).
Proof. intro H. split; [intros k v; symmetry; apply (look_in K V eqb ltb ord); exact H|exact (adj_srt l H)]. Qed.
Lemma srt_keys (l : entries) : srt l -> NoDup (map ekey l).
Proof.
  induction l as [|e l IH]; intro H; cbn [map]; constructor; cbn [RbOps3.srt] in H; destruct H as [H1 H2]; [|auto].
  intro X. apply in_map_iff in X. destruct X as (f & Ef & Hf). specialize (H1 f Hf). unfold lte in H1. rewrite Ef in H1. rewrite (to_irr _ _ _ ord) in H1. discriminate.
Qed.
Lemma card_srt (l : entries) : srt l -> card K V (look l) (length l).
Proof.
  intro H. exists (map ekey l). split; [exact (srt_keys l H)|]. split; [apply map_length|]. intro k. split.
  - intro X. apply in_map_iff in X. destruct X as ([i [k' v]] & <- & Hi). intro Y. assert (Z : look l k' = Some v) by (apply (look_in K V eqb ltb ord l k' v H); apply in_map_iff; exists (i, (k', v)); auto). cbn in Y. congruence.
  - destruct (look l k) as [v|] eqn:E; [|congruence]. intros _. apply (look_in K V eqb ltb ord l k v H) in E. apply in_map_iff in E. destruct E as ([i [k' v']] & E & Hi). cbn in E. injection E as -> ->. apply in_map_iff. exists (i, (k, v)). auto.
Qed.
Lemma look_empty (l : entries) : (length l =? 0) = true <-> forall k, look l k = None.
Proof.
  split; [destruct l; [reflexivity|discriminate]|]. intro H. destruct l as [|[i [k v]] l]; [reflexivity|]. specialize (H k). unfold RbOps3.look in H. cbn in H. rewrite (eqb_refl_ _ _ _ ord) in H. discriminate.
Qed.
Lemma advance_run {s t} : Inv s t -> forall n (p q : entries), elems t = p ++ q -> advance K V n (fid q) s = Some (fid (skipn n q), s).
Proof.
  intros H n. induction n as [|n IH]; intros p q El; cbn [advance]; [reflexivity|]. destruct q as [|[i [k v]] q]; [reflexivity|].
  change (fid ((i, (k, v)) :: q)) with i. destruct (hdr_entry K V ltb dk dv p i k v q H El) as [-> _]. rewrite (bind_run (increment_R K V ltb dk dv p i k v q H El)).
  cbn [skipn]. apply (IH (p ++ [(i, (k, v))])). rewrite <- app_assoc. exact El.
Qed.
Lemma rest_run {s t} (p q : entries) : Inv s t -> elems t = p ++ q -> rest K V (fid q) s = Some (OList (map snd q), s).
Proof.
  intros H El. unfold rest. rewrite (bind_run (eq_refl : get_fuel K V s = Some (next K V s, s))). pose proof (Inv_len K V ltb dk dv H) as Le. rewrite El, app_length in Le.
  rewrite (bind_run (visit_R K V ltb dk dv H q p (S (next K V s)) El ltac:(unfold entry in *; lia))). reflexivity.
Qed.
(** going backwards *)
Lemma fid_id {s t} (p q : entries) : Inv s t -> elems t = p ++ q -> fid q = fid (elems t) -> p = [] \/ elems t = [].
Proof.
  intros H El E. destruct p as [|[i [k v]] p]; [auto|]. exfalso. assert (E0 : fid (elems t) = i) by (rewrite El; reflexivity). rewrite E0 in E. pose proof (Inv_nd K V ltb dk dv H) as Nd. rewrite El in Nd. cbn in Nd. inversion Nd as [|? ? Nn _]; subst.
  assert (El' : elems t = [] ++ (fid q, (k, v)) :: p ++ q) by exact El. destruct (hdr_entry K V ltb dk dv [] (fid q) k v (p ++ q) H El') as [X _].
  destruct q as [|e q]; [discriminate|]. apply Nn. rewrite map_app. apply in_or_app. right. left. reflexivity.
Qed.
Lemma lid_id {s t} (p q : entries) : Inv s t -> elems t = p ++ q -> lid p = lid (elems t) -> q = [] \/ elems t = [].
Proof.
  intros H El E. destruct q as [|e0 q0] using rev_ind; [auto|]. clear IHq0. exfalso. assert (E0 : lid (elems t) = fst e0) by (rewrite El, app_assoc, lid_snoc; reflexivity). rewrite E0 in E. pose proof (Inv_nd K V ltb dk dv H) as Nd.
  destruct e0 as [i [k v]]. assert (El' : elems t = (p ++ q0) ++ (i, (k, v)) :: []) by (rewrite El, app_assoc; reflexivity). destruct (hdr_entry K V ltb dk dv _ i k v [] H El') as [X _]. rewrite El' in Nd. cbn [fst] in E.
  destruct p as [|e1 p1] using rev_ind; [cbn in E; subst i; discriminate|]. rewrite lid_snoc in E. rewrite map_app in Nd. destruct (nd_app _ _ Nd) as (_ & _ & Dj). apply (Dj i); [|left; reflexivity].
  rewrite <- E, !map_app. apply in_or_app. left. apply in_or_app. right. left. reflexivity.
Qed.
Lemma back_R {s t} : Inv s t -> elems t <> [] -> forall (p q : entries) fuel, elems t = p ++ q -> length p < fuel ->
  back K V fuel R R (fid (elems t)) (fid q) s = Some (rev (map snd p), s).
Proof.
  intros H Ne p. induction p as [|[i [k v]] p IH] using rev_ind; intros q fuel El Hf; (destruct fuel as [|f]; [lia|]); cbn [back].
  - cbn [app] in El. rewrite El, Nat.eqb_refl. reflexivity.
  - assert (Nq : Nat.eqb (fid q) (fid (elems t)) = false).
    { apply Nat.eqb_neq. intro X. destruct (fid_id (p ++ [(i, (k, v))]) q H El X) as [Y|Y]; [apply app_eq_nil in Y; destruct Y; discriminate|contradiction]. }
    rewrite Nq. assert (El' : elems t = p ++ (i, (k, v)) :: q) by (rewrite El, <- app_assoc; reflexivity).
    assert (D : decrement K V R R (fid q) s = Some (i, s)).
    { destruct q as [|[j [k' v']] q].
      - change (fid []) with hdr. rewrite (decrement_end K V ltb dk dv R R H) by (intros ->; contradiction). rewrite El', lid_snoc. reflexivity.
      - change (fid ((j, (k', v')) :: q)) with j. rewrite (decrement_R K V ltb dk dv R (p ++ [(i, (k, v))]) j k' v' q H El). rewrite lid_snoc. reflexivity. }
    rewrite (bind_run D). destruct (rd_entry K V ltb dk dv p i k v q H El') as (n & Hn & Hk & Hv). rewrite (bind_run (rd_run Hn)). rewrite app_length in Hf. cbn [length] in Hf.
    change i with (fid ((i, (k, v)) :: q)) at 1. rewrite (bind_run (IH ((i, (k, v)) :: q) f El' ltac:(lia))). unfold ret. rewrite Hk, Hv, map_app, rev_app_distr. reflexivity.
Qed.
Lemma back_L {s t} : Inv s t -> elems t <> [] -> forall (q p : entries) fuel, elems t = p ++ q -> length q < fuel ->
  back K V fuel L L (lid (elems t)) (lid p) s = Some (map snd q, s).
Proof.
  intros H Ne q. induction q as [|[i [k v]] q IH]; intros p fuel El Hf; (destruct fuel as [|f]; [lia|]); cbn [back].
  - rewrite app_nil_r in El. rewrite El, Nat.eqb_refl. reflexivity.
  - assert (Nq : Nat.eqb (lid p) (lid (elems t)) = false).
    { apply Nat.eqb_neq. intro X. destruct (lid_id p ((i, (k, v)) :: q) H El X) as [Y|Y]; [discriminate|contradiction]. }
    rewrite Nq. assert (D : decrement K V L L (lid p) s = Some (i, s)).
    { destruct p as [|[j [k' v']] p] using rev_ind.
      - change (lid []) with hdr. rewrite (decrement_end K V ltb dk dv L L H) by (intros ->; contradiction). rewrite El. reflexivity.
      - rewrite lid_snoc. cbn [fst]. assert (El' : elems t = p ++ (j, (k', v')) :: (i, (k, v)) :: q) by (rewrite El, <- app_assoc; reflexivity). rewrite (decrement_L K V ltb dk dv L p j k' v' _ H El'). reflexivity. }
    rewrite (bind_run D). destruct (rd_entry K V ltb dk dv p i k v q H El) as (n & Hn & Hk & Hv). rewrite (bind_run (rd_run Hn)). cbn [length] in Hf.
    assert (Ei : lid (p ++ [(i, (k, v))]) = i) by (rewrite lid_snoc; reflexivity). pose proof (IH (p ++ [(i, (k, v))]) f ltac:(rewrite <- app_assoc; exact El) ltac:(lia)) as X. rewrite Ei in X. rewrite (bind_run X). unfold ret. rewrite Hk, Hv. reflexivity.
Qed.
Lemma filter_map_snd (f : K * V -> bool) (l : entries) : map snd (filter (fun e => f (snd e)) l) = filter f (map snd l).
Proof. induction l as [|e l IH]; [reflexivity|]. cbn [filter map]. destruct (f (snd e)); cbn [map]; rewrite IH; reflexivity. Qed.

Lemma exec_run {s t} o : Inv s t -> exists u s' t', exec K V eqb ltb dv o s = Some (u, s') /\ Inv s' t' /\ step K V ltb dv (look (elems t)) o u (look (elems t')).
Proof.
  intro H. pose proof (iv_srt _ _ _ _ _ _ _ H) as Hs. pose proof (Inv_len K V ltb dk dv H) as Le. destruct o as [k v|k|k v|k| | |k| | | | | | |k|k|n|n c]; cbn [exec].
  - destruct (insert_inv K V eqb ltb dk dv ord k v H) as (s' & t' & p & i & q & R' & H' & E' & E0 & A & B). rewrite (bind_run R'). eexists _, s', t'. split; [reflexivity|]. split; [exact H'|].
    constructor; [rewrite E'; apply (look_hit K V eqb ltb ord); exact A|]. intros j Nj. rewrite E', (look_other K V eqb ltb ord) by exact Nj. destruct E0 as [->|(v0 & ->)]; [reflexivity|]. symmetry. apply (look_other K V eqb ltb ord). exact Nj.
  - destruct (index_inv K V eqb ltb dk dv ord k H) as (s' & t' & p & i & v & q & R' & H' & E' & E0 & A & B). rewrite (bind_run R'). destruct (rd_entry K V ltb dk dv p i k v q H' E') as (n & Hn & _ & Hv). rewrite (bind_run (rd_run Hn)). rewrite Hv.
    eexists _, s', t'. split; [reflexivity|]. split; [exact H'|]. destruct E0 as [[E0 ->]|E0].
    + apply s_index_new; [rewrite E0; apply (look_miss K V eqb ltb ord); assumption|rewrite E'; apply (look_hit K V eqb ltb ord); exact A|]. intros j Nj. rewrite E', E0. apply (look_other K V eqb ltb ord). exact Nj.
    + apply s_index_old; [rewrite E0; apply (look_hit K V eqb ltb ord); exact A|]. intro j. rewrite E', E0. reflexivity.
  - destruct (index_inv K V eqb ltb dk dv ord k H) as (s' & t' & p & i & v0 & q & R' & H' & E' & E0 & A & B). rewrite (bind_run R').
    destruct (value_inv K V ltb dk dv p i k v0 q (w_val K V v) v H' E' (fun n => eq_refl)) as (s2 & t2 & R2 & H2 & E2). rewrite (bind_run R2). eexists _, s2, t2. split; [reflexivity|]. split; [exact H2|].
    constructor; [rewrite E2; apply (look_hit K V eqb ltb ord); exact A|]. intros j Nj. rewrite E2, (look_other K V eqb ltb ord) by exact Nj. destruct E0 as [[-> _]| ->]; [reflexivity|]. symmetry. apply (look_other K V eqb ltb ord). exact Nj.
  - rewrite (bind_run (get_inv K V eqb ltb dk dv ord k H)). eexists _, s, t. split; [reflexivity|]. split; [exact H|]. constructor. reflexivity.
  - unfold size. rewrite (bind_run (eq_refl : get_cnt K V s = Some (cnt K V s, s))). eexists _, s, t. split; [reflexivity|]. split; [exact H|]. constructor; [rewrite (iv_cnt _ _ _ _ _ _ _ H); apply card_srt; exact Hs|reflexivity].
  - unfold is_empty. eexists _, s, t. split; [reflexivity|]. split; [exact H|]. constructor; [rewrite (iv_cnt _ _ _ _ _ _ _ H); apply look_empty|reflexivity].
  - unfold erase. destruct t as [|c l i kk w r].
    + assert (X : (bind K V (get_root K V) (fun r => if null r then ret K V 0 else bind K V (get_fuel K V) (fun f => bind K V (remove K V eqb ltb f r k) (fun b => ret K V (if b then 1 else 0))))) s = Some (0, s)).
      { rewrite (bind_run (eq_refl : get_root K V s = Some (root K V s, s))). rewrite (Inv_root K V ltb dk dv H). reflexivity. }
      rewrite (bind_run X). eexists _, s, E. split; [reflexivity|]. split; [exact H|]. apply s_erase_miss; reflexivity.
    + set (t := T c l i kk w r) in *. assert (Ht : t <> E) by discriminate. assert (Hn : null (root K V s) = false) by (rewrite (Inv_root K V ltb dk dv H), (Inv_null K V ltb dk dv H); reflexivity).
      destruct (remove_inv K V eqb ltb dk dv ord k H Ht) as [[Hm Rm]|(s' & t' & p & j & v & q & Rm & H' & E1 & E2 & A & B)].
      * assert (X : (bind K V (get_root K V) (fun r => if null r then ret K V 0 else bind K V (get_fuel K V) (fun f => bind K V (remove K V eqb ltb f r k) (fun b => ret K V (if b then 1 else 0))))) s = Some (0, s)).
        { rewrite (bind_run (eq_refl : get_root K V s = Some (root K V s, s))). rewrite Hn. rewrite (bind_run (eq_refl : get_fuel K V s = Some (next K V s, s))). rewrite (bind_run Rm). reflexivity. }
        rewrite (bind_run X). eexists _, s, t. split; [reflexivity|]. split; [exact H|]. apply s_erase_miss; [exact Hm|reflexivity].
      * assert (X : (bind K V (get_root K V) (fun r => if null r then ret K V 0 else bind K V (get_fuel K V) (fun f => bind K V (remove K V eqb ltb f r k) (fun b => ret K V (if b then 1 else 0))))) s = Some (1, s')).
        { rewrite (bind_run (eq_refl : get_root K V s = Some (root K V s, s))). rewrite Hn. rewrite (bind_run (eq_refl : get_fuel K V s = Some (next K V s, s))). rewrite (bind_run Rm). reflexivity. }
        rewrite (bind_run X). eexists _, s', t'. split; [reflexivity|]. split; [exact H'|]. apply s_erase_hit with v; [rewrite E1; apply (look_hit K V eqb ltb ord); exact A|rewrite E2; apply (look_miss K V eqb ltb ord); assumption|].
        intros j' Nj. rewrite E1, E2. symmetry. apply (look_other K V eqb ltb ord). exact Nj.
  - destruct (clear_run K V dk dv (iv_rc _ _ _ _ _ _ _ H)) as (s' & R' & H' & C' & _). rewrite (bind_run R'). eexists _, s', E. split; [reflexivity|]. split; [constructor; [exact H'|exact C'|exists 0; constructor|exact I]|]. constructor. reflexivity.
  - rewrite (bind_run (iterate_run K V ltb dk dv H)). eexists _, s, t. split; [reflexivity|]. split; [exact H|]. constructor; [apply lists_srt; exact Hs|reflexivity].
  - rewrite (bind_run (iterate_reverse_run K V ltb dk dv H)). eexists _, s, t. split; [reflexivity|]. split; [exact H|]. constructor; [rewrite rev_involutive; apply lists_srt; exact Hs|reflexivity].
  - rewrite (bind_run (for_each_run K V ltb dk dv H)). eexists _, s, t. split; [reflexivity|]. split; [exact H|]. constructor; [apply lists_srt; exact Hs|reflexivity].
  - rewrite (bind_run (begin_run K V ltb dk dv H)). rewrite (bind_run (eq_refl : get_fuel K V s = Some (next K V s, s))).
    assert (X : back K V (next K V s) R R (fid (elems t)) hdr s = Some (rev (map snd (elems t)), s)).
    { destruct (elems t) as [|e0 l0] eqn:Ee; [destruct (next K V s) as [|f]; [lia|reflexivity]|]. rewrite <- Ee in *. apply (back_R H ltac:(rewrite Ee; discriminate) (elems t) []); [rewrite app_nil_r; reflexivity|unfold entry in *; lia]. }
    rewrite (bind_run X). eexists _, s, t. split; [reflexivity|]. split; [exact H|]. constructor; [rewrite rev_involutive; apply lists_srt; exact Hs|reflexivity].
  - rewrite (bind_run (rbegin_run K V ltb dk dv H)). rewrite (bind_run (eq_refl : get_fuel K V s = Some (next K V s, s))).
    assert (X : back K V (next K V s) L L (lid (elems t)) hdr s = Some (map snd (elems t), s)).
    { destruct (elems t) as [|e0 l0] eqn:Ee; [destruct (next K V s) as [|f]; [lia|reflexivity]|]. rewrite <- Ee in *. apply (back_L H ltac:(rewrite Ee; discriminate) (elems t) []); [reflexivity|unfold entry in *; lia]. }
    rewrite (bind_run X). eexists _, s, t. split; [reflexivity|]. split; [exact H|]. constructor; [apply lists_srt; exact Hs|reflexivity].
  - unfold lower_bound. rewrite (bind_run (bound_run K V eqb ltb dk dv ord true k H)). destruct (filter_suffix K V eqb ltb ord true k (elems t) Hs) as (p & Ep). rewrite (rest_run p _ H Ep).
    eexists _, s, t. split; [reflexivity|]. split; [exact H|]. rewrite (filter_map_snd (fun e => negb (ltb (fst e) k))). constructor; [apply lists_srt; exact Hs|reflexivity].
  - unfold upper_bound. rewrite (bind_run (bound_run K V eqb ltb dk dv ord false k H)). destruct (filter_suffix K V eqb ltb ord false k (elems t) Hs) as (p & Ep). rewrite (rest_run p _ H Ep).
    eexists _, s, t. split; [reflexivity|]. split; [exact H|]. rewrite (filter_map_snd (fun e => ltb k (fst e))). constructor; [apply lists_srt; exact Hs|reflexivity].
  - rewrite (bind_run (begin_run K V ltb dk dv H)). rewrite (bind_run (advance_run H n [] (elems t) eq_refl)). destruct (skipn n (elems t)) as [|[i [k v]] q] eqn:Eq.
    + change (fid []) with hdr. rewrite (bind_run (eq_refl : erase_it K V eqb ltb hdr s = Some (hdr, s))). rewrite (rest_run (elems t) [] H ltac:(rewrite app_nil_r; reflexivity) : rest K V hdr s = _).
      eexists _, s, t. split; [reflexivity|]. split; [exact H|]. assert (Ln : length (elems t) <= n) by (pose proof (skipn_length n (elems t)) as X; rewrite Eq in X; cbn in X; lia).
      pose proof (s_erase_at K V ltb dv (look (elems t)) n (map snd (elems t)) (look (elems t)) (lists_srt _ Hs)) as X. rewrite (skipn_all2 (map snd (elems t))) in X by (rewrite map_length; unfold entry in *; lia).
      apply X. rewrite firstn_all2, app_nil_r by (rewrite map_length; unfold entry in *; lia). apply lists_srt. exact Hs.
    + assert (El : elems t = firstn n (elems t) ++ (i, (k, v)) :: q) by exact (eq_trans (eq_sym (firstn_skipn n (elems t))) (f_equal (app (firstn n (elems t))) Eq)). destruct (erase_it_run K V eqb ltb dk dv ord _ i k v q H El) as (s' & t' & R' & H' & E').
      change (fid ((i, (k, v)) :: q)) with i. rewrite (bind_run R'). rewrite (rest_run _ q H' E'). eexists _, s', t'. split; [reflexivity|]. split; [exact H'|].
      assert (Ek : q = skipn (S n) (elems t)) by (rewrite <- (skipn_skipn' 1 n), Eq; reflexivity). rewrite Ek, <- skipn_map. constructor; [apply lists_srt; exact Hs|].
      pose proof (lists_srt _ (iv_srt _ _ _ _ _ _ _ H')) as X. rewrite E' in X at 2. rewrite Ek, map_app, <- firstn_map, <- skipn_map in X. exact X.
  - rewrite (bind_run (begin_run K V ltb dk dv H)). rewrite (bind_run (advance_run H n [] (elems t) eq_refl)). rewrite (bind_run (advance_run H c (firstn n (elems t)) (skipn n (elems t)) ltac:(rewrite firstn_skipn; reflexivity))).
    set (q := skipn c (skipn n (elems t))). assert (El : elems t = firstn n (elems t) ++ firstn c (skipn n (elems t)) ++ q) by (unfold q; rewrite firstn_skipn, firstn_skipn; reflexivity).
    destruct (erase_range_run K V eqb ltb dk dv ord _ _ q H El) as (s' & t' & R' & H' & E'). unfold q in R'. rewrite firstn_skipn in R'. fold q in R'. rewrite (bind_run R'). rewrite (rest_run _ q H' E'). eexists _, s', t'. split; [reflexivity|]. split; [exact H'|].
    assert (Ek : q = skipn (n + c) (elems t)) by (unfold q; rewrite skipn_skipn'; f_equal; lia). rewrite Ek, <- skipn_map. constructor; [apply lists_srt; exact Hs|].
    pose proof (lists_srt _ (iv_srt _ _ _ _ _ _ _ H')) as X. rewrite E' in X at 2. rewrite Ek, map_app, <- firstn_map, <- skipn_map in X. exact X.
Qed.
Lemma run_ok os : forall {s t}, Inv s t -> exists us s' t', run K V eqb ltb dv os s = Some (us, s') /\ Inv s' t' /\ steps K V ltb dv (look (elems t)) os us (look (elems t')).
Proof.
  induction os as [|o os IH]; intros s t H; cbn [run]; [eexists _, s, t; split; [reflexivity|]; split; [exact H|]; constructor; reflexivity|].
  destruct (exec_run o H) as (u & s1 & t1 & R1 & H1 & S1). destruct (IH s1 t1 H1) as (us & s2 & t2 & R2 & H2 & S2). rewrite (bind_run R1), (bind_run R2). eexists _, s2, t2. split; [reflexivity|]. split; [exact H2|]. econstructor; eassumption.
Qed.

(** shape *)
Definition red (n : RbModel.node K V) : bool := match ncol K V n with Red => true | Black => false end.
Notation RBH s := (rbh (RbModel.node K V) (heap K V s) red (npar K V) (nleft K V) (nright K V)).
Notation DESC s := (desc (RbModel.node K V) (heap K V s) (nleft K V) (nright K V)).
Lemma rep_rbh s : forall t c b par, rb K V t c b -> rep K V (heap K V s) par t -> (forall i, In i (ids K V t) -> i <> 0) -> RBH s par (pid K V t) (match c with Red => true | Black => false end) b.
Proof.
  intros t c b par Hb. revert par. induction Hb as [|l i k v r n Hl IHl Hr IHr|l i k v r c1 c2 n Hl IHl Hr IHr]; intros par Hp Hz; [constructor| |]; cbn [rep] in Hp; destruct Hp as (A & B & C); rewrite ids_T in Hz.
  - eapply rbh_red; [apply Hz; apply in_or_app; right; left; reflexivity|exact A|reflexivity|reflexivity|apply IHl; [exact B|intros; apply Hz; apply in_or_app; auto]|apply IHr; [exact C|intros; apply Hz; apply in_or_app; right; right; auto]].
  - eapply rbh_black; [apply Hz; apply in_or_app; right; left; reflexivity|exact A|reflexivity|reflexivity|apply IHl; [exact B|intros; apply Hz; apply in_or_app; auto]|apply IHr; [exact C|intros; apply Hz; apply in_or_app; right; right; auto]].
Qed.
Lemma rb_size t c b : rb K V t c b -> 2 ^ b <= S (length (elems t)).
Proof.
  induction 1 as [|l i k v r n Hl IHl Hr IHr|l i k v r c1 c2 n Hl IHl Hr IHr]; cbn [RbTree.elems length Nat.pow] in *; [lia| |]; rewrite app_length; cbn [length]; unfold entry in *; lia.
Qed.
(** links below p: at most 2b, one more below a red root *)
Lemma desc_rbh s : forall par p c b, RBH s par p c b -> forall m q, DESC s p m q -> m <= 2 * b + if c then 1 else 0.
Proof.
  intros par p c b H. induction H as [par|par p n b Hp Hn _ Hc Hl IHl Hr IHr|par p n b c1 c2 Hp Hn _ Hc Hl IHl Hr IHr]; intros m q D; inversion D; subst; try lia; try contradiction.
  - rewrite Hn in H0. injection H0 as <-. apply IHl in H1. lia.
  - rewrite Hn in H0. injection H0 as <-. apply IHr in H1. lia.
  - rewrite Hn in H0. injection H0 as <-. apply IHl in H1. destruct c1; lia.
  - rewrite Hn in H0. injection H0 as <-. apply IHr in H1. destruct c2; lia.
Qed.
Lemma shape_ok {s t} : Inv s t -> exists b, RBH s hdr (root K V s) false b /\ 2 ^ b <= S (cnt K V s).
Proof.
  intro H. destruct (iv_rb _ _ _ _ _ _ _ H) as (b & Hb). exists b. rewrite (Inv_root K V ltb dk dv H), (iv_cnt _ _ _ _ _ _ _ H). split; [|exact (rb_size _ _ _ Hb)].
  apply (rep_rbh s t Black b 1 Hb); [exact (rc_t _ _ _ _ _ _ _ _ _ (iv_rc _ _ _ _ _ _ _ H))|]. intros i Hi. pose proof (rc_rng _ _ _ _ _ _ _ _ _ (iv_rc _ _ _ _ _ _ _ H) i (in_or_app _ _ _ (or_introl Hi))). lia.
Qed.
End H.
