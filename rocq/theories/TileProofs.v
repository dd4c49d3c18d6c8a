From Verif Require Import Prelude VectorModel VectorSpec VectorProofs TileModel TileSpec.

Section P.
Context {A : Type}.
Variable zero : A.
Variable L : nat.
Hypothesis L0 : 0 < L.

Lemma addr_div nch c i : c < nch -> addr L nch c i / L = i / L * nch + c /\ addr L nch c i mod L = i mod L.
Proof.
  intro Hc. unfold addr. pose proof (Nat.mod_upper_bound i L ltac:(lia)).
  split.
  - rewrite Nat.div_add_l by lia. rewrite (Nat.div_small (i mod L) L) by lia. lia.
  - rewrite Nat.add_comm, Nat.mod_add by lia. apply Nat.mod_small. lia.
Qed.
Lemma addr_inj nch c i c' i' : c < nch -> c' < nch -> addr L nch c i = addr L nch c' i' -> c = c' /\ i = i'.
Proof.
  intros Hc Hc' E. destruct (addr_div nch c i Hc) as [D M]. destruct (addr_div nch c' i' Hc') as [D' M']. rewrite E in D, M. rewrite D' in D. rewrite M' in M.
  assert (Q : i / L = i' / L /\ c = c').
  { assert (c = c') by (rewrite <- (Nat.mod_small c nch), <- (Nat.mod_small c' nch) by lia;
      rewrite <- (Nat.mod_add c (i / L) nch), <- (Nat.mod_add c' (i' / L) nch) by lia; f_equal; lia).
    split; [|assumption]. subst. assert (i' / L * nch = i / L * nch) by lia. apply Nat.mul_cancel_r in H; lia. }
  destruct Q as [Q ->]. split; [reflexivity|]. rewrite (Nat.div_mod i L), (Nat.div_mod i' L) by lia. rewrite Q, M. reflexivity.
Qed.
Lemma tile_of n i : i < n -> i / L < count_tiles L n.
Proof.
  intro H. unfold count_tiles. apply Nat.div_le_lower_bound; [lia|]. pose proof (Nat.div_mod i L ltac:(lia)). pose proof (Nat.mod_upper_bound i L ltac:(lia)). lia.
Qed.
Lemma addr_lt nch c i k : c < nch -> i / L < k -> addr L nch c i < k * L * nch.
Proof.
  intros Hc Hi. unfold addr. pose proof (Nat.mod_upper_bound i L ltac:(lia)).
  apply Nat.lt_le_trans with (((i / L) * nch + c) * L + L); [lia|].
  replace (((i / L) * nch + c) * L + L) with (((i / L) * nch + c + 1) * L) by ring.
  replace (k * L * nch) with ((k * nch) * L) by ring. apply Nat.mul_le_mono_r.
  apply Nat.le_trans with ((i / L + 1) * nch); [lia|]. apply Nat.mul_le_mono_r. lia.
Qed.
Lemma tile_addr_addr nch t c o : o < L -> tile_addr L nch t c o = addr L nch c (t * L + o).
Proof.
  intro Ho. unfold tile_addr, addr. rewrite Nat.div_add_l by lia. rewrite (Nat.div_small o L) by lia.
  rewrite (Nat.add_comm (t * L) o), Nat.mod_add by lia. rewrite (Nat.mod_small o L) by lia. ring.
Qed.
Lemma count_tiles_mono n m : n <= m -> count_tiles L n <= count_tiles L m.
Proof. intro H. unfold count_tiles. apply Nat.div_le_mono; lia. Qed.
Lemma count_tiles_ge n : n <= count_tiles L n * L.
Proof.
  unfold count_tiles. pose proof (Nat.div_mod (n + L - 1) L ltac:(lia)). pose proof (Nat.mod_upper_bound (n + L - 1) L ltac:(lia)). lia.
Qed.

(** transfers *)
Definition sval (sb : list (option A)) (s : src) : option (option A) := match s with Const x => Some (Some x) | From a => nth_error sb a end.
Lemma run_transfer_eq sb (d : list (option A)) t x : sval sb (snd t) = Some x -> run_transfer sb (Some d) t = upd d (fst t) x.
Proof. destruct t as [k [a|y]]; cbn; intro E; [rewrite E; reflexivity|injection E as <-; reflexivity]. Qed.
Lemma run_transfers_ok sb order : forall d : list (option A), NoDup (map fst order) ->
  (forall t, In t order -> fst t < length d /\ exists x, sval sb (snd t) = Some x) ->
  exists d', run_transfers sb d order = Some d' /\ length d' = length d /\
    (forall t, In t order -> nth_error d' (fst t) = sval sb (snd t)) /\
    (forall j, ~ In j (map fst order) -> nth_error d' j = nth_error d j).
Proof.
  unfold run_transfers. induction order as [|t order IH]; intros d ND H.
  - exists d. repeat split; auto. intros t [].
  - cbn [map] in ND. inversion ND as [|? ? N1 N2]; subst. cbn [fold_left].
    destruct (H t (or_introl eq_refl)) as [Hl [x Hx]]. rewrite (run_transfer_eq _ _ _ _ Hx).
    destruct (upd_some d (fst t) x Hl) as [d1 E1]. rewrite E1. pose proof (upd_length _ _ _ _ E1) as Ll.
    destruct (IH d1 N2) as (d' & E' & L' & V' & U').
    { intros u Hu. destruct (H u (or_intror Hu)). split; [lia|assumption]. }
    exists d'. split; [exact E'|]. split; [lia|]. split.
    + intros u [<-|Hu]; [|apply V'; exact Hu]. rewrite U' by exact N1. rewrite Hx. eapply upd_nth_eq; eassumption.
    + intros j Hj. cbn [map In] in Hj. rewrite U' by tauto. eapply upd_nth_neq; [eassumption|]. intro; subst; tauto.
Qed.
Lemma run_perm sb order T : forall d : list (option A), Permutation order T -> NoDup (map fst T) ->
  (forall t, In t T -> fst t < length d /\ exists x, sval sb (snd t) = Some x) ->
  exists d', run_transfers sb d order = Some d' /\ length d' = length d /\
    (forall t, In t T -> nth_error d' (fst t) = sval sb (snd t)) /\
    (forall j, ~ In j (map fst T) -> nth_error d' j = nth_error d j).
Proof.
  intros d P ND H. assert (PM := Permutation_map fst P).
  destruct (run_transfers_ok sb order d) as (d' & E & Ln & V & U).
  - eapply Permutation_NoDup; [symmetry; exact PM|exact ND].
  - intros t Ht. apply H. eapply Permutation_in; eassumption.
  - exists d'. repeat split; auto.
    + intros t Ht. apply V. eapply Permutation_in; [symmetry; exact P|exact Ht].
    + intros j Hj. apply U. intro Q. apply Hj. eapply Permutation_in; eassumption.
Qed.
Lemma NoDup_app' {B} (l r : list B) : NoDup l -> NoDup r -> (forall x, In x l -> ~ In x r) -> NoDup (l ++ r).
Proof.
  induction l as [|a l IH]; intros N1 N2 D; cbn; [exact N2|]. inversion N1; subst. constructor.
  - rewrite in_app_iff. intros [Q|Q]; [contradiction|]. apply (D a); [left; reflexivity|exact Q].
  - apply IH; auto. intros x Hx. apply D. right; exact Hx.
Qed.
Lemma NoDup_flat_map {B C} (f : B -> list C) l : NoDup l -> (forall x, In x l -> NoDup (f x)) ->
  (forall x y z, In x l -> In y l -> In z (f x) -> In z (f y) -> x = y) -> NoDup (flat_map f l).
Proof.
  induction l as [|a l IH]; intros ND F D; cbn; [constructor|]. inversion ND; subst.
  apply NoDup_app'; [apply F; left; reflexivity|apply IH; auto|].
  - intros x Hx. apply F; right; exact Hx.
  - intros x y z Hx Hy. apply D; right; assumption.
  - intros z Hz Q. apply in_flat_map in Q as (y & Hy & Hz'). assert (a = y) by (eapply D; [left; reflexivity|right; exact Hy|exact Hz|exact Hz']). subst. contradiction.
Qed.

Lemma NoDup_map_in {B C} (f : B -> C) l : NoDup l -> (forall x y, In x l -> In y l -> f x = f y -> x = y) -> NoDup (map f l).
Proof.
  induction l as [|a l IH]; intros N D; cbn; [constructor|]. inversion N; subst. constructor.
  - intro Q. apply in_map_iff in Q as (y & E & Hy). assert (y = a) by (apply D; [right; exact Hy|left; reflexivity|exact E]). subst; contradiction.
  - apply IH; auto. intros x y Hx Hy. apply D; right; assumption.
Qed.

(** tables of transfers indexed by (i, c) with destination addresses given by an injective function *)
Lemma grid_map_fst (d : nat -> nat -> nat) (s : nat -> nat -> @src A) nch n :
  map fst (flat_map (fun i => map (fun c => (d i c, s i c)) (seq 0 nch)) (seq 0 n)) =
  flat_map (fun i => map (d i) (seq 0 nch)) (seq 0 n).
Proof.
  generalize 0 at 2 4. induction n as [|n IH]; intro a; [reflexivity|]. cbn [seq flat_map]. rewrite map_app, IH. f_equal. rewrite map_map. reflexivity.
Qed.
Lemma grid_nodup (d : nat -> nat -> nat) nch n :
  (forall i c i' c', i < n -> c < nch -> i' < n -> c' < nch -> d i c = d i' c' -> i = i' /\ c = c') ->
  NoDup (flat_map (fun i => map (d i) (seq 0 nch)) (seq 0 n)).
Proof.
  intro I. apply NoDup_flat_map.
  - apply seq_NoDup.
  - intros i Hi. apply in_seq in Hi. apply NoDup_map_in; [apply seq_NoDup|]. intros c c' Hc Hc' E. apply in_seq in Hc, Hc'.
    apply (I i c i c'); lia.
  - intros i i' z Hi Hi' Hz Hz'. apply in_seq in Hi, Hi'. apply in_map_iff in Hz as (c & <- & Hc). apply in_map_iff in Hz' as (c' & E & Hc').
    apply in_seq in Hc, Hc'. apply (I i c i' c'); try lia. 
Qed.
Lemma in_grid (d : nat -> nat -> nat) (s : nat -> nat -> @src A) nch n (t : nat * @src A) :
  In t (flat_map (fun i => map (fun c => (d i c, s i c)) (seq 0 nch)) (seq 0 n)) <-> exists i c, i < n /\ c < nch /\ t = (d i c, s i c).
Proof.
  rewrite in_flat_map. split.
  - intros (i & Hi & H). apply in_map_iff in H as (c & <- & Hc). apply in_seq in Hi, Hc. exists i, c. repeat split; lia.
  - intros (i & c & Hi & Hc & ->). exists i. split; [apply in_seq; lia|]. apply in_map_iff. exists c. split; [reflexivity|apply in_seq; lia].
Qed.
Lemma grid_run sb order (d : nat -> nat -> nat) (s : nat -> nat -> @src A) nch n (dst : list (option A)) :
  Permutation order (flat_map (fun i => map (fun c => (d i c, s i c)) (seq 0 nch)) (seq 0 n)) ->
  (forall i c i' c', i < n -> c < nch -> i' < n -> c' < nch -> d i c = d i' c' -> i = i' /\ c = c') ->
  (forall i c, i < n -> c < nch -> d i c < length dst /\ exists x, sval sb (s i c) = Some x) ->
  exists dst', run_transfers sb dst order = Some dst' /\ length dst' = length dst /\
    (forall i c, i < n -> c < nch -> nth_error dst' (d i c) = sval sb (s i c)).
Proof.
  intros P I R. destruct (run_perm sb order _ dst P) as (d' & E & Ln & V & _).
  - rewrite grid_map_fst. apply grid_nodup. exact I.
  - intros t Ht. apply in_grid in Ht as (i & c & Hi & Hc & ->). cbn. apply R; assumption.
  - exists d'. repeat split; auto. intros i c Hi Hc. apply (V (d i c, s i c)). apply in_grid. exists i, c. auto.
Qed.

(** tags *)
Lemma total_channels_sum tags : total_channels tags = channels tags.
Proof.
  unfold total_channels, channels. assert (G : forall a, fold_left (fun c (t : tag) => c + snd t) tags a = a + list_sum (map snd tags)).
  { induction tags as [|t tags IH]; intro a; cbn; [lia|]. rewrite IH. unfold list_sum. lia. }
  apply G.
Qed.
Lemma channels_app a b : channels (a ++ b) = channels a + channels b.
Proof. unfold channels. rewrite map_app, list_sum_app. reflexivity. Qed.
Lemma find_name tags n : match find (fun g : nat * nat => fst g =? n) tags with Some g => In g tags /\ fst g = n | None => ~ In n (names tags) end.
Proof.
  destruct (find _ tags) as [g|] eqn:E.
  - apply find_some in E as [I Q]. apply Nat.eqb_eq in Q. auto.
  - intro I. apply in_map_iff in I as (g & Q & I). apply (find_none _ _ E) in I. apply Nat.eqb_neq in I. contradiction.
Qed.
Lemma names_unique tags n c c' : NoDup (names tags) -> In (n, c) tags -> In (n, c') tags -> c = c'.
Proof.
  induction tags as [|[m d] tags IH]; intros ND H H'; [destruct H|]. cbn in ND. inversion ND as [|? ? N1 N2]; subst.
  assert (K : forall e, In (m, e) tags -> False) by (intros e He; apply N1; apply in_map_iff; exists (m, e); auto).
  destruct H as [E|H], H' as [E'|H'].
  - congruence.
  - injection E as -> ->. destruct (K _ H').
  - injection E' as -> ->. destruct (K _ H).
  - apply IH; assumption.
Qed.
Lemma merge_spec app : forall tags, NoDup (names tags) ->
  match merge_tags tags app with
  | None => clashes tags app
  | Some r => ~ clashes tags app /\ r = added tags app /\ NoDup (names r) /\ exists ext, r = tags ++ ext
  end.
Proof.
  induction app as [|[n c] app IH]; intros tags ND; cbn [merge_tags clashes added].
  - repeat split; auto. exists []. rewrite app_nil_r. reflexivity.
  - pose proof (find_name tags n) as F. destruct (find (fun g : nat * nat => fst g =? n) tags) as [[m d]|] eqn:EF; rewrite ?EF in *.
    + destruct F as [I E]. cbn in E. subst m. cbn [snd]. destruct (in_dec Nat.eq_dec n (names tags)) as [Hn|Hn].
      2: { destruct Hn. apply in_map_iff. exists (n, d). auto. }
      destruct (Nat.eqb_spec d c) as [->|Ne].
      * cbv iota. specialize (IH tags ND). destruct (merge_tags tags app).
        { destruct IH as (I1 & I2 & I3 & I4). split; [|auto]. intros [(c' & Hc' & Nc)|Q]; [|auto]. apply Nc. eapply names_unique; eassumption. }
        right; exact IH.
      * left. exists d. auto.
    + destruct (in_dec Nat.eq_dec n (names tags)) as [Hn|Hn]; [contradiction|].
      assert (ND' : NoDup (names (tags ++ [(n, c)]))).
      { unfold names. rewrite map_app. cbn. apply NoDup_app'; [exact ND|constructor; [intros []|constructor]|]. intros x Hx [<-|[]]. contradiction. }
      specialize (IH _ ND'). destruct (merge_tags _ app).
      * destruct IH as (I1 & I2 & I3 & ext & I4). split; [|repeat split; auto].
        -- intros [(c' & Hc' & _)|Q]; [|auto]. apply Hn. apply in_map_iff. exists (n, c'). auto.
        -- exists ((n, c) :: ext). rewrite I4, <- app_assoc. reflexivity.
      * right; exact IH.
Qed.

(** representation *)
Definition trep (t : tv A) (b : table) : Prop :=
  ttags t = btags b /\ tsize t = bsize b /\ tnch t = channels (btags b) /\ 0 < tnch t /\ NoDup (names (btags b)) /\ 
  vsize (tbuf t) = count_tiles L (tsize t) * L * tnch t /\ vsize (tbuf t) <= capacity (tbuf t) /\ 
  (forall c i x, bval b c i = Some x -> c < tnch t /\ i < tsize t /\ nth_error (cells (tbuf t)) (addr L (tnch t) c i) = Some (Some x)).

Lemma trep_addr t b c i : trep t b -> c < tnch t -> i < tsize t -> addr L (tnch t) c i < vsize (tbuf t).
Proof. intros (R1 & R2 & R3 & R4 & R5 & R6 & _) Hc Hi. rewrite R6. apply addr_lt; [exact Hc|]. apply tile_of. exact Hi. Qed.

Lemma set_trep t b c i x : trep t b -> c < channels (btags b) -> i < bsize b ->
  exists t', tv_set L t c i x = Some t' /\ trep t' (bstep zero L b (TSet c i x)).
Proof.
  intros R Hc Hi. pose proof R as (R1 & R2 & R3 & R4 & R5 & R6 & R7 & R8). rewrite <- R3 in Hc. rewrite <- R2 in Hi.
  pose proof (trep_addr t b c i R Hc Hi) as Ha. unfold tv_set, store. destruct (upd_some (cells (tbuf t)) (addr L (tnch t) c i) (Some x)) as [d E]; [unfold capacity in R7; lia|].
  rewrite E. eexists. split; [reflexivity|]. pose proof (upd_length _ _ _ _ E) as Ll. unfold trep, capacity in *. cbn [ttags tsize tnch tbuf vsize cells bstep btags bsize bval].
  repeat split; try assumption; try lia.
  - destruct (Nat.eqb_spec c0 c); [|apply (R8 _ _ _ H)]. destruct (Nat.eqb_spec i0 i); [lia|apply (R8 _ _ _ H)].
  - destruct (Nat.eqb_spec c0 c); [|apply (R8 _ _ _ H)]. destruct (Nat.eqb_spec i0 i); [lia|apply (R8 _ _ _ H)].
  - destruct (Nat.eqb_spec c0 c) as [->|Nc]; [destruct (Nat.eqb_spec i0 i) as [->|Ni]|]; cbn [andb] in H.
    + injection H as <-. eapply upd_nth_eq; eassumption.
    + destruct (R8 _ _ _ H) as (K1 & K2 & K3). rewrite (upd_nth_neq _ _ _ _ _ E); [exact K3|]. intro Q. apply addr_inj in Q; lia.
    + destruct (R8 _ _ _ H) as (K1 & K2 & K3). rewrite (upd_nth_neq _ _ _ _ _ E); [exact K3|]. intro Q. apply addr_inj in Q; lia.
Qed.

Lemma resize_trep t b n : trep t b -> exists t', tv_resize L t n = Some t' /\ trep t' (bstep zero L b (TResize n)).
Proof.
  intros R. pose proof R as (R1 & R2 & R3 & R4 & R5 & R6 & R7 & R8). unfold tv_resize.
  assert (K : exists v', alignedResize (tbuf t) (count_tiles L n * L * tnch t) (L * tnch t) = Some v' /\ vsize v' = count_tiles L n * L * tnch t /\ 
     vsize v' <= capacity v' /\ forall j, j < Nat.min (vsize (tbuf t)) (vsize v') -> nth_error (cells v') j = nth_error (cells (tbuf t)) j).
  { unfold alignedResize. set (m := count_tiles L n * L * tnch t). destruct (Nat.ltb_spec m (vsize (tbuf t))).
    { eexists. split; [reflexivity|]. unfold capacity in *. cbn. repeat split; auto; lia. }
    destruct (Nat.ltb_spec (vsize (tbuf t)) m).
    2: { eexists. split; [reflexivity|]. repeat split; auto; lia. }
    destruct (Nat.ltb_spec (capacity (tbuf t)) m).
    2: { eexists. split; [reflexivity|]. unfold capacity in *. cbn. repeat split; auto; lia. }
    destruct (Nat.eqb_spec (L * tnch t) 0) as [Z|Z]; [apply Nat.eq_mul_0 in Z; lia|].
    unfold realloc. set (nc := growth m (capacity (tbuf t)) + _). pose proof (growth_ge m (capacity (tbuf t))).
    assert (m <= nc) by (unfold nc; lia).
    destruct (copy_n_ok (cells (tbuf t)) (vsize (tbuf t)) 0 0 (repeat None nc)) as (c & E & Lc & Nc); [unfold capacity in *; lia|rewrite repeat_length; lia|].
    rewrite E. rewrite repeat_length in Lc. eexists. split; [reflexivity|]. unfold capacity. cbn [vsize cells]. repeat split; [lia|].
    intros j Hj. rewrite Nc. destruct (Nat.leb_spec 0 j); [|lia]. destruct (Nat.ltb_spec j (0 + vsize (tbuf t))); [|lia]. cbn [andb]. f_equal. lia. }
  destruct K as (v' & E & K1 & K2 & K3). rewrite E. eexists. split; [reflexivity|].
  unfold trep. cbn [ttags tsize tnch tbuf bstep btags bsize bval]. do 7 (split; [assumption || reflexivity|]).
  intros c i x H. destruct (Nat.ltb_spec i (Nat.min (bsize b) n)) as [Hi|]; [|discriminate]. destruct (R8 _ _ _ H) as (Q1 & Q2 & Q3).
  split; [exact Q1|]. split; [lia|]. rewrite K3; [exact Q3|]. rewrite R6, K1. apply Nat.min_glb_lt; apply addr_lt; try assumption; apply tile_of; lia.
Qed.

Lemma ctor_trep tags n : NoDup (names tags) -> 0 < channels tags -> trep (tv_ctor L tags n) (mktab tags n (fun _ _ => None)).
Proof.
  intros N C. unfold trep, tv_ctor, v_ctor, capacity. cbn [ttags tsize tnch tbuf vsize cells btags bsize bval]. rewrite repeat_length, total_channels_sum.
  do 7 (split; [assumption || reflexivity || lia|]). intros; discriminate.
Qed.

Lemma reset_trep t b x order : trep t b -> Permutation order (reset_transfers L (tnch t) (tsize t) x) ->
  exists c, run_transfers [] (cells (tbuf t)) order = Some c /\ 
  trep (mktv (mkvec c (vsize (tbuf t))) (ttags t) (tsize t) (tnch t)) (bstep zero L b (TReset x)).
Proof.
  intros R P. pose proof R as (R1 & R2 & R3 & R4 & R5 & R6 & R7 & R8).
  destruct (grid_run [] order (fun i c => addr L (tnch t) c i) (fun _ _ => Const x) (tnch t) (tsize t) (cells (tbuf t)) P) as (c & E & Lc & V).
  - intros i c i' c' Hi Hc Hi' Hc' Q. apply addr_inj in Q; tauto.
  - intros i c Hi Hc. split; [pose proof (trep_addr t b c i R Hc Hi); unfold capacity in R7; lia|]. cbn. eauto.
  - exists c. split; [exact E|]. unfold trep, capacity in *. cbn [ttags tsize tnch tbuf vsize cells bstep btags bsize bval].
    do 6 (split; [assumption|]). split; [lia|]. intros k i y H. rewrite <- R3, <- R2 in H.
    destruct (Nat.ltb_spec k (tnch t)); [|discriminate]. destruct (Nat.ltb_spec i (tsize t)); [|discriminate]. cbn in H. injection H as <-.
    split; [auto|]. split; [auto|]. rewrite V by assumption. reflexivity.
Qed.

Lemma append_trep t b app tags order : trep t b -> merge_tags (ttags t) app = Some tags ->
  let tmp := tv_ctor L tags (tsize t) in
  Permutation order (append_transfers zero L (tnch t) (tnch tmp) (tsize t)) ->
  exists c, run_transfers (cells (tbuf t)) (cells (tbuf tmp)) order = Some c /\ 
  trep (mktv (mkvec c (vsize (tbuf tmp))) tags (tsize t) (tnch tmp)) (bstep zero L b (TAppend app)).
Proof.
  intros R M tmp P. pose proof R as (R1 & R2 & R3 & R4 & R5 & R6 & R7 & R8).
  rewrite R1 in M. pose proof (merge_spec app (btags b) R5) as S. rewrite M in S. destruct S as (_ & S2 & S3 & ext & S4).
  assert (Cn : tnch tmp = channels tags) by (unfold tmp; cbn; apply total_channels_sum).
  assert (Cl : length (cells (tbuf tmp)) = count_tiles L (tsize t) * L * tnch tmp) by (unfold tmp; cbn; apply repeat_length).
  assert (Cge : tnch t <= tnch tmp) by (rewrite Cn, S4, channels_app; lia).
  destruct (grid_run (cells (tbuf t)) order (fun i c => addr L (tnch tmp) c i)
     (fun i c => if c <? tnch t then From (addr L (tnch t) c i) else Const zero) (tnch tmp) (tsize t) (cells (tbuf tmp)) P) as (c & E & Lc & V).
  - intros i c i' c' Hi Hc Hi' Hc' Q. apply addr_inj in Q; tauto.
  - intros i c Hi Hc. split; [rewrite Cl; apply addr_lt; [exact Hc|apply tile_of; exact Hi]|].
    destruct (Nat.ltb_spec c (tnch t)); cbn [sval]; [|eauto].
    pose proof (trep_addr t b c i R H Hi). unfold capacity in R7. apply nth_error_lt_some. lia.
  - exists c. split; [exact E|]. unfold trep, capacity. cbn [ttags tsize tnch tbuf vsize cells bstep btags bsize bval].
    split; [exact S2|]. split; [exact R2|]. split; [rewrite Cn, S2; reflexivity|]. split; [lia|]. split; [rewrite <- S2; exact S3|].
    split; [reflexivity|]. split; [rewrite Lc, Cl; apply Nat.le_refl|].
    intros k i y H. rewrite <- R3, <- R2, <- S2, <- Cn in H. destruct (Nat.ltb_spec k (tnch t)) as [Hk|Hk].
    + destruct (R8 _ _ _ H) as (Q1 & Q2 & Q3). split; [lia|]. split; [exact Q2|]. rewrite V by lia.
      destruct (Nat.ltb_spec k (tnch t)); [exact Q3|lia].
    + destruct (Nat.ltb_spec k (tnch tmp)); [|discriminate]. destruct (Nat.ltb_spec i (tsize t)); [|discriminate]. cbn in H. injection H as <-.
      split; [auto|]. split; [auto|]. rewrite V by assumption. destruct (Nat.ltb_spec k (tnch t)); [lia|reflexivity].
Qed.

Lemma index_of_spec mp j : In j mp -> index_of mp j < length mp /\ nth (index_of mp j) mp 0 = j.
Proof.
  induction mp as [|x mp IH]; intros H; [destruct H|]. cbn. destruct (Nat.eqb_spec x j); [split; [lia|assumption]|].
  destruct H as [|H]; [contradiction|]. destruct (IH H). split; [lia|assumption].
Qed.

Lemma reorder_trep t b sc mp order : trep t b -> Permutation mp (seq 0 (count_tiles L (tsize t))) ->
  let tmp := tv_ctor L (ttags t) (tsize t) in
  Permutation order (reorder_transfers L sc (tnch t) (count_tiles L (tsize t)) mp) ->
  exists c, run_transfers (cells (tbuf t)) (cells (tbuf tmp)) order = Some c /\ 
  trep (mktv (mkvec c (vsize (tbuf tmp))) (ttags t) (tsize t) (tnch tmp)) (bstep zero L b (TReorder sc mp)).
Proof.
  intros R PM tmp P. pose proof R as (R1 & R2 & R3 & R4 & R5 & R6 & R7 & R8).
  set (nt := count_tiles L (tsize t)) in *.
  assert (Lm : length mp = nt) by (rewrite (Permutation_length PM), seq_length; reflexivity).
  assert (Cn : tnch tmp = tnch t) by (unfold tmp; cbn; rewrite total_channels_sum, R1; auto).
  assert (Cl : length (cells (tbuf tmp)) = nt * L * tnch t) by (rewrite <- Cn; unfold tmp; cbn; apply repeat_length).
  assert (Rng : forall i, i < nt -> nth i mp 0 < nt).
  { intros i Hi. assert (In (nth i mp 0) mp) by (apply nth_In; lia). apply (Permutation_in _ PM) in H. apply in_seq in H. lia. }
  assert (Inj : forall i i', i < nt -> i' < nt -> nth i mp 0 = nth i' mp 0 -> i = i').
  { intros i i' Hi Hi' Q. assert (ND : NoDup mp) by (eapply Permutation_NoDup; [symmetry; exact PM|apply seq_NoDup]).
    eapply (proj1 (NoDup_nth mp 0) ND); [lia|lia|exact Q]. }
  assert (PD : forall p, p < nt * L -> p / L < nt /\ p mod L < L).
  { intros p Hp. split; [apply Nat.div_lt_upper_bound; lia|apply Nat.mod_upper_bound; lia]. }
  assert (TD : forall k o, o < L -> (k * L + o) / L = k /\ (k * L + o) mod L = o).
  { intros k o Ho. split; [rewrite Nat.div_add_l by lia; rewrite Nat.div_small by lia; lia|rewrite Nat.add_comm, Nat.mod_add by lia; apply Nat.mod_small; lia]. }
  assert (SR : forall k o d, k < nt -> o < L -> d < tnch t -> exists x, sval (cells (tbuf t)) (From (tile_addr L (tnch t) k d o)) = Some x).
  { intros k o d Hk Ho Hd. cbn [sval]. apply nth_error_lt_some. rewrite tile_addr_addr by exact Ho.
    assert (addr L (tnch t) d (k * L + o) < nt * L * tnch t) by (apply addr_lt; [exact Hd|rewrite (proj1 (TD k o Ho)); exact Hk]).
    unfold capacity in R7. lia. }
  assert (DR : forall k o d, k < nt -> o < L -> d < tnch t -> tile_addr L (tnch t) k d o < length (cells (tbuf tmp))).
  { intros k o d Hk Ho Hd. rewrite Cl, tile_addr_addr by exact Ho. apply addr_lt; [exact Hd|rewrite (proj1 (TD k o Ho)); exact Hk]. }
  assert (DI : forall p p', p < nt * L -> p' < nt * L -> p / L = p' / L -> p mod L = p' mod L -> p = p').
  { intros p p' _ _ Q1 Q2. rewrite (Nat.div_mod p L), (Nat.div_mod p' L) by lia. rewrite Q1, Q2. reflexivity. }
  assert (TI : forall k o d k' o' d', o < L -> o' < L -> d < tnch t -> d' < tnch t -> tile_addr L (tnch t) k d o = tile_addr L (tnch t) k' d' o' -> k = k' /\ o = o' /\ d = d').
  { intros k o d k' o' d' Ho Ho' Hd Hd' Q. rewrite !tile_addr_addr in Q by assumption. apply addr_inj in Q; try assumption. destruct Q as [-> Q].
    destruct (TD k o Ho) as [A1 A2]. destruct (TD k' o' Ho') as [B1 B2]. rewrite Q in A1, A2. repeat split; congruence. }
  assert (W : exists c, run_transfers (cells (tbuf t)) (cells (tbuf tmp)) order = Some c /\ length c = length (cells (tbuf tmp)) /\ 
     forall i o d, i < nt -> o < L -> d < tnch t ->
       if sc then nth_error c (tile_addr L (tnch t) (nth i mp 0) d o) = nth_error (cells (tbuf t)) (tile_addr L (tnch t) i d o)
       else nth_error c (tile_addr L (tnch t) i d o) = nth_error (cells (tbuf t)) (tile_addr L (tnch t) (nth i mp 0) d o)).
  { unfold reorder_transfers in P. destruct sc.
    - destruct (grid_run (cells (tbuf t)) order (fun p d => tile_addr L (tnch t) (nth (p / L) mp 0) d (p mod L))
        (fun p d => From (tile_addr L (tnch t) (p / L) d (p mod L))) (tnch t) (nt * L) (cells (tbuf tmp)) P) as (c & E & Lc & V).
      + intros p d p' d' Hp Hd Hp' Hd' Q. destruct (PD p Hp), (PD p' Hp'). apply TI in Q; try assumption. destruct Q as (Q1 & Q2 & Q3).
        split; [|exact Q3]. apply Inj in Q1; auto.
      + intros p d Hp Hd. destruct (PD p Hp). split; [apply DR; auto|apply SR; auto].
      + exists c. split; [exact E|]. split; [exact Lc|]. intros i o d Hi Ho Hd. destruct (TD i o Ho) as [T1 T2].
        assert (Hp : i * L + o < nt * L) by (apply Nat.lt_le_trans with (S i * L); [lia|apply Nat.mul_le_mono_r; lia]).
        specialize (V (i * L + o) d Hp Hd). cbn [sval] in V. rewrite T1, T2 in V. exact V.
    - destruct (grid_run (cells (tbuf t)) order (fun p d => tile_addr L (tnch t) (p / L) d (p mod L))
        (fun p d => From (tile_addr L (tnch t) (nth (p / L) mp 0) d (p mod L))) (tnch t) (nt * L) (cells (tbuf tmp)) P) as (c & E & Lc & V).
      + intros p d p' d' Hp Hd Hp' Hd' Q. destruct (PD p Hp), (PD p' Hp'). apply TI in Q; try assumption. destruct Q as (Q1 & Q2 & Q3).
        split; [|exact Q3]. auto.
      + intros p d Hp Hd. destruct (PD p Hp). split; [apply DR; auto|apply SR; auto].
      + exists c. split; [exact E|]. split; [exact Lc|]. intros i o d Hi Ho Hd. destruct (TD i o Ho) as [T1 T2].
        assert (Hp : i * L + o < nt * L) by (apply Nat.lt_le_trans with (S i * L); [lia|apply Nat.mul_le_mono_r; lia]).
        specialize (V (i * L + o) d Hp Hd). cbn [sval] in V. rewrite T1, T2 in V. exact V. }
  destruct W as (c & E & Lc & V). exists c. split; [exact E|].
  assert (AT : forall d i, i < tsize t -> addr L (tnch t) d i = tile_addr L (tnch t) (i / L) d (i mod L)).
  { intros d i Hi. rewrite tile_addr_addr by (apply Nat.mod_upper_bound; lia). f_equal. rewrite (Nat.div_mod i L) at 1 by lia. ring. }
  unfold trep, capacity. rewrite Cn. cbn [ttags tsize tnch tbuf vsize cells].
  assert (BS : exists f, bstep zero L b (TReorder sc mp) = mktab (btags b) (bsize b) (fun c => clip (bsize b) (fun i => bval b c (f i * L + i mod L)))
     /\ forall i, i < tsize t -> f i < nt /\ forall d, d < tnch t -> nth_error c (tile_addr L (tnch t) (i / L) d (i mod L)) = nth_error (cells (tbuf t)) (tile_addr L (tnch t) (f i) d (i mod L))).
  { destruct sc; cbn [bstep].
    - exists (fun i => index_of mp (i / L)). split; [reflexivity|]. intros i Hi. pose proof (tile_of (tsize t) i Hi) as Ht. fold nt in Ht.
      assert (I : In (i / L) mp) by (eapply Permutation_in; [symmetry; exact PM|apply in_seq; lia]).
      destruct (index_of_spec mp _ I) as [I1 I2]. split; [lia|]. intros d Hd.
      assert (Ho : i mod L < L) by (apply Nat.mod_upper_bound; lia).
      specialize (V (index_of mp (i / L)) (i mod L) d ltac:(lia) Ho Hd). rewrite I2 in V. exact V.
    - exists (fun i => nth (i / L) mp 0). split; [reflexivity|]. intros i Hi. pose proof (tile_of (tsize t) i Hi) as Ht. fold nt in Ht.
      split; [auto|]. intros d Hd. apply V; [exact Ht|apply Nat.mod_upper_bound; lia|exact Hd]. }
  destruct BS as (f & BE & BV). rewrite BE. cbn [btags bsize bval].
  do 5 (split; [assumption|]). split; [rewrite <- Cn; reflexivity|]. split; [rewrite Lc, Cl, <- Cn; unfold tmp, nt; cbn; apply Nat.le_refl|].
  intros k i y H. unfold clip in H. destruct (Nat.ltb_spec i (bsize b)) as [Hi|]; [|discriminate]. rewrite <- R2 in Hi.
  destruct (R8 _ _ _ H) as (Q1 & Q2 & Q3). split; [exact Q1|]. split; [exact Hi|].
  destruct (BV i Hi) as [_ BV']. rewrite AT by exact Hi. rewrite BV' by exact Q1. rewrite tile_addr_addr by (apply Nat.mod_upper_bound; lia). exact Q3.
Qed.

Lemma copy_trep t b : trep t b -> exists t', tv_copy t = Some t' /\ trep t' b.
Proof.
  intros R. pose proof R as (R1 & R2 & R3 & R4 & R5 & R6 & R7 & R8). unfold tv_copy, v_copy. unfold capacity in *.
  destruct (copy_n_ok (cells (tbuf t)) (vsize (tbuf t)) 0 0 (repeat None (length (cells (tbuf t))))) as (c & E & Lc & Nc); [lia|rewrite repeat_length; lia|].
  rewrite E. rewrite repeat_length in Lc. destruct (Nat.eqb_spec (tnch t) 0); [lia|].
  assert (N1 : forall j, j < vsize (tbuf t) -> nth_error c j = nth_error (cells (tbuf t)) j).
  { intros j Hj. rewrite Nc. destruct (Nat.leb_spec 0 j); [|lia]. destruct (Nat.ltb_spec j (0 + vsize (tbuf t))); [|lia]. cbn [andb]. f_equal. lia. }
  destruct (Nat.eqb_spec (length (cells (tbuf t)) / tnch t) 0).
  - eexists. split; [reflexivity|]. unfold trep, capacity. cbn [ttags tsize tnch tbuf vsize cells].
    do 6 (split; [assumption|]). split; [lia|]. intros k i x H. destruct (R8 _ _ _ H) as (Q1 & Q2 & Q3). split; [auto|]. split; [auto|]. rewrite N1; [exact Q3|].
    eapply trep_addr; eassumption.
  - cbn [cells vsize]. pose proof (Nat.mul_div_le (length (cells (tbuf t))) (tnch t) ltac:(lia)) as Hm.
    destruct (copy_n_ok (cells (tbuf t)) (tnch t * (length (cells (tbuf t)) / tnch t)) 0 0 c) as (c2 & E2 & L2 & N2); [lia|lia|].
    rewrite E2. eexists. split; [reflexivity|]. unfold trep, capacity. cbn [ttags tsize tnch tbuf vsize cells].
    do 6 (split; [assumption|]). split; [lia|]. intros k i x H. destruct (R8 _ _ _ H) as (Q1 & Q2 & Q3). split; [auto|]. split; [auto|]. rewrite N2.
    destruct ((0 <=? addr L (tnch t) k i) && _).
    + rewrite Nat.sub_0_r. exact Q3.
    + rewrite N1; [exact Q3|]. eapply trep_addr; eassumption.
Qed.
Lemma clone_trep t b : trep t b -> exists t', tv_clone L t = Some t' /\ trep t' b.
Proof.
  intros R. pose proof R as (R1 & R2 & R3 & R4 & R5 & R6 & R7 & R8). unfold tv_clone, tv_ctor. unfold capacity in *. cbn [tbuf cells ttags tsize tnch vsize v_ctor].
  assert (Ec : total_channels (ttags t) = tnch t) by (rewrite total_channels_sum, R1; auto). rewrite Ec.
  assert (Em : tnch t * (count_tiles L (tsize t) * L) = vsize (tbuf t)) by (rewrite R6; ring). rewrite Em. rewrite <- R6.
  destruct (copy_n_ok (cells (tbuf t)) (vsize (tbuf t)) 0 0 (repeat None (vsize (tbuf t)))) as (c & E & Lc & Nc); [lia|rewrite repeat_length; lia|].
  rewrite E. rewrite repeat_length in Lc. eexists. split; [reflexivity|]. unfold trep, capacity. cbn [ttags tsize tnch tbuf vsize cells].
  do 6 (split; [assumption|]). split; [lia|]. intros k i x H. destruct (R8 _ _ _ H) as (Q1 & Q2 & Q3). repeat split; auto.
  pose proof (trep_addr t b k i R Q1 Q2) as Ha. rewrite Nc. destruct (Nat.leb_spec 0 (addr L (tnch t) k i)); [|lia].
  destruct (Nat.ltb_spec (addr L (tnch t) k i) (0 + vsize (tbuf t))); [|lia]. cbn [andb]. rewrite Nat.sub_0_r. exact Q3.
Qed.

Lemma tstep_ok t b o r : trep t b -> top_ok L b o -> tstep zero L t o r ->
  (throws L b o /\ r = Throw) \/ (~ throws L b o /\ exists t', r = Ok t' /\ trep t' (bstep zero L b o)).
Proof.
  intros R OK S. pose proof R as (R1 & R2 & R3 & R4 & R5 & R6 & R7 & R8). destruct S; cbn [throws top_ok] in *.
  - right. split; [auto|]. destruct OK. destruct (set_trep t b c i x R H H0) as (t' & E & T). rewrite E. exists t'. auto.
  - right. split; [auto|]. destruct (resize_trep t b n R) as (t' & E & T). rewrite E. exists t'. auto.
  - right. split; [auto|]. eexists. split; [reflexivity|]. unfold tv_clear. rewrite R1. apply ctor_trep; [assumption|lia].
  - right. split; [auto|]. destruct (reset_trep t b x order R H) as (c & E & T). rewrite E. eexists; split; [reflexivity|exact T].
  - left. split; [|reflexivity]. pose proof (merge_spec app (btags b) R5) as M. rewrite <- R1, H in M. rewrite <- R1. exact M.
  - right. pose proof (merge_spec app (btags b) R5) as M. rewrite R1 in H. rewrite H in M. destruct M as (M1 & M2 & M3 & M4).
    split; [exact M1|]. exists t. split; [reflexivity|]. unfold trep. cbn [bstep btags bsize bval]. rewrite <- M2.
    do 7 (split; [assumption|]). intros k i x Hx. destruct (Nat.ltb_spec k (channels (btags b))); [apply R8; exact Hx|discriminate].
  - right. pose proof (merge_spec app (btags b) R5) as M. pose proof H as H'. rewrite R1 in H'. rewrite H' in M. destruct M as (M1 & _).
    split; [exact M1|]. destruct (append_trep t b app tags order R H H1) as (c & E & T). cbn zeta in E. fold tmp in E. rewrite E. eexists. split; [reflexivity|exact T].
  - left. split; [|reflexivity]. rewrite <- R2. exact H.
  - right. unfold count_tiles in H. rewrite R2 in H. split; [auto|]. specialize (OK H).
    destruct (reorder_trep t b sc mp order R) as (c & E & T); [unfold count_tiles; rewrite R2; exact OK|exact H0|].
    fold tmp in E. rewrite E. eexists. split; [reflexivity|exact T].
  - right. split; [auto|]. destruct (copy_trep t b R) as (t' & E & T). rewrite E. exists t'. auto.
  - right. split; [auto|]. destruct (clone_trep t b R) as (t' & E & T). rewrite E. exists t'. auto.
Qed.

Lemma trun_ok os : forall t b b', trep t b -> bruns zero L b os b' -> forall r, trun zero L t os r -> exists t', r = Some t' /\ trep t' b'.
Proof.
  induction os as [|o os IH]; intros t b b' R B r T.
  - inversion B; subst. inversion T; subst. eauto.
  - inversion B as [|? ? ? ? OK Th Bs|? ? ? ? OK Th Bs]; subst; inversion T as [|? ? t1 ? ? S1 T1|? ? ? ? S1 T1|? ? ? S1]; subst;
      destruct (tstep_ok _ _ _ _ R OK S1) as [[K1 K2]|[K1 (t2 & K2 & K3)]]; try contradiction; try discriminate.
    + eapply IH; eassumption.
    + injection K2 as ->. eapply IH; eassumption.
Qed.
Lemma tile_table tags n os b : NoDup (names tags) -> 0 < channels tags -> bruns zero L (mktab tags n (fun _ _ => None)) os b ->
  forall r, trun zero L (tv_ctor L tags n) os r ->
  exists t, r = Some t /\ ttags t = btags b /\ tsize t = bsize b /\ tnch t = channels (btags b) /\
    forall c i x, c < channels (btags b) -> i < bsize b -> bval b c i = Some x -> tv_get L t c i = Some (Some x).
Proof.
  intros N C B r T. destruct (trun_ok os _ _ b (ctor_trep tags n N C) B r T) as (t & -> & R). exists t. split; [reflexivity|].
  destruct R as (R1 & R2 & R3 & R4 & R5 & R6 & R7 & R8). repeat split; auto. intros c i x _ _ H. apply R8 in H. apply H.
Qed.
(** every operation has some execution *)
Lemma tstep_total t o : exists r, tstep zero L t o r.
Proof.
  destruct o.
  - eexists; apply S_set. - eexists; apply S_resize. - eexists; apply S_clear. - eexists; eapply S_reset; apply Permutation_refl.
  - destruct (merge_tags (ttags t) app) as [tags|] eqn:E; [|eexists; apply S_append_throw; exact E].
    destruct (list_eq_dec (fun x y : tag => ltac:(decide equality; apply Nat.eq_dec)) tags (ttags t)) as [->|Ne].
    + eexists; apply S_append_same; exact E.
    + eexists; eapply S_append; [exact E|exact Ne|apply Permutation_refl].
  - destruct (Nat.eq_dec (length mp) (count_tiles L (tsize t))).
    + eexists; eapply S_reorder; [assumption|apply Permutation_refl].
    + eexists; apply S_reorder_throw; assumption.
  - eexists; apply S_copy. - eexists; apply S_clone.
Qed.
Lemma addresses nch n c i c' i' : c < nch -> i < n -> c' < nch -> i' < n ->
  addr L nch c i < count_tiles L n * L * nch /\ (addr L nch c i = addr L nch c' i' -> c = c' /\ i = i') /\
  addr L nch c i = tile_addr L nch (i / L) c (i mod L).
Proof.
  intros Hc Hi Hc' Hi'. split; [apply addr_lt; [exact Hc|apply tile_of; exact Hi]|]. split; [apply addr_inj; assumption|].
  rewrite tile_addr_addr by (apply Nat.mod_upper_bound; lia). f_equal. rewrite (Nat.div_mod i L) at 1 by lia. ring.
Qed.
End P.

Lemma prop_offset_app tags name : forall o, ~ In name (names tags) -> forall r, prop_offset_from (tags ++ r) name o = prop_offset_from r name (o + channels tags).
Proof.
  induction tags as [|[n c] tags IH]; intros o H r; cbn [app prop_offset_from]; [unfold channels; cbn; f_equal; lia|].
  cbn in H. destruct (Nat.eqb_spec name n); [subst; tauto|]. rewrite IH by tauto. f_equal. unfold channels, list_sum. cbn. lia.
Qed.
Lemma prop_size_app tags name r : ~ In name (names tags) -> prop_size (tags ++ r) name = prop_size r name.
Proof. induction tags as [|[n c] tags IH]; intro H; cbn; [reflexivity|]. cbn in H. destruct (Nat.eqb_spec name n); [subst; tauto|]. apply IH. tauto. Qed.
Lemma offset_inv tags name o : NoDup (names tags) -> prop_offset_from tags name 0 = Some o ->
  exists l k r, tags = l ++ (name, k) :: r /\ o = channels l /\ prop_size tags name = k.
Proof.
  intros ND H. assert (I : In name (names tags)).
  { revert H. generalize 0. clear ND. induction tags as [|[n c] tags IH]; intros a H; cbn in *; [discriminate|]. destruct (Nat.eqb_spec name n); [auto|]. right. eapply IH; eassumption. }
  apply in_map_iff in I as ([n k] & E & I). cbn in E. subst n. apply in_split in I as (l & r & ->). exists l, k, r. split; [reflexivity|].
  unfold names in ND. rewrite map_app in ND. apply NoDup_remove_2 in ND. rewrite in_app_iff in ND.
  rewrite prop_offset_app in H by tauto. cbn in H. rewrite Nat.eqb_refl in H. injection H as <-. split; [reflexivity|].
  rewrite prop_size_app by tauto. cbn. rewrite Nat.eqb_refl. reflexivity.
Qed.
Lemma offset_of l k r name : NoDup (names (l ++ (name, k) :: r)) -> prop_offset_from (l ++ (name, k) :: r) name 0 = Some (channels l) /\ prop_size (l ++ (name, k) :: r) name = k.
Proof.
  intro ND. unfold names in ND. rewrite map_app in ND. apply NoDup_remove_2 in ND. rewrite in_app_iff in ND.
  rewrite prop_offset_app, prop_size_app by tauto. cbn. rewrite Nat.eqb_refl. auto.
Qed.
Lemma split_order {B} (l r l' r' : list B) x y : l ++ x :: r = l' ++ y :: r' ->
  (l = l' /\ x = y) \/ (exists m, l' = l ++ x :: m) \/ (exists m, l = l' ++ y :: m).
Proof.
  revert l'. induction l as [|a l IH]; intros [|b l'] E; cbn in E.
  - injection E as -> _. auto.
  - injection E as -> E. right; left. exists l'. reflexivity.
  - injection E as <- E. right; right. exists l. reflexivity.
  - injection E as <- E. destruct (IH l' E) as [[-> ->]|[[m ->]|[m ->]]]; [left; auto|right; left; exists m; reflexivity|right; right; exists m; reflexivity].
Qed.
Lemma property_ranges tags : NoDup (names tags) ->
  (forall n, In n (names tags) <-> exists o, prop_offset_from tags n 0 = Some o) /\
  (forall n o, prop_offset_from tags n 0 = Some o -> o + prop_size tags n <= channels tags) /\
  (forall n o n' o', prop_offset_from tags n 0 = Some o -> prop_offset_from tags n' 0 = Some o' -> n <> n' ->
     o + prop_size tags n <= o' \/ o' + prop_size tags n' <= o) /\
  (forall c, c < channels tags -> exists n o, prop_offset_from tags n 0 = Some o /\ o <= c < o + prop_size tags n).
Proof.
  intro ND. split; [|split; [|split]].
  - intro n. split.
    + intro I. apply in_map_iff in I as ([m k] & E & I). cbn in E. subst m. apply in_split in I as (l & r & ->). exists (channels l). apply offset_of; exact ND.
    + intros [o H]. apply offset_inv in H as (l & k & r & -> & _); [|exact ND]. unfold names. rewrite map_app. apply in_app_iff. right. left. reflexivity.
  - intros n o H. apply offset_inv in H as (l & k & r & -> & -> & ->); [|exact ND]. rewrite channels_app. unfold channels at 3, list_sum. cbn. lia.
  - intros n o n' o' H H' Ne. apply offset_inv in H as (l & k & r & E & -> & ->); [|exact ND]. apply offset_inv in H' as (l' & k' & r' & E' & -> & ->); [|exact ND].
    rewrite E in E'. apply split_order in E' as [[_ Q]|[[m ->]|[m ->]]]; [congruence|left|right]; rewrite channels_app; unfold channels at 3, list_sum; cbn; lia.
  - intros c Hc. assert (G : exists l n k r, tags = l ++ (n, k) :: r /\ channels l <= c < channels l + k).
    { clear ND. revert c Hc. induction tags as [|[n k] tags IH]; intros c Hc; [unfold channels in Hc; cbn in Hc; lia|].
      assert (Ec : channels ((n, k) :: tags) = k + channels tags) by reflexivity. assert (Hc2 : c < k + channels tags) by exact Hc. clear Hc. rename Hc2 into Hc.
      destruct (Nat.lt_ge_cases c k).
      - exists [], n, k, tags. unfold channels; cbn. split; [reflexivity|lia].
      - destruct (IH (c - k) ltac:(lia)) as (l & n' & k' & r & -> & B). exists ((n, k) :: l), n', k', r. split; [reflexivity|].
        assert (El : channels ((n, k) :: l) = k + channels l) by reflexivity. lia. }
    destruct G as (l & n & k & r & -> & B). destruct (offset_of l k r n ND) as [O1 O2]. exists n, (channels l). rewrite O1, O2. auto.
Qed.
