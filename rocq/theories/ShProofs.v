(** SpatialHash: the cells of a box, the placement kernels. *)
From Verif Require Import Prelude CollapseModel CollapseSpec CollapseProofs CollapseProofs2 SortModel RadixModel CountModel CountProofs ShModel ShSpec.
From Coq Require Import Sorted.
Local Open Scope Z_scope.

Lemma visits_mono f : forall ns it l, visits f ns it = Some l -> forall f', (f <= f')%nat -> visits f' ns it = Some l.
Proof.
  induction f as [|f IH]; intros ns it l H f' L; [discriminate|]. destruct f' as [|f']; [lia|]. cbn [visits] in *.
  destruct (col_eqb it (col_end ns)); auto. destruct (increment ns it) as [it'|]; [|discriminate].
  destruct (visits f ns it') as [l'|] eqn:E; [|discriminate]. rewrite (IH _ _ _ E f') by lia. exact H.
Qed.
Lemma lex_irrefl a : ~ lexlt a a.
Proof. induction a as [|x a IH]; cbn; [auto|]. intros [H|[_ H]]; [lia|auto]. Qed.
Lemma sorted_nodup l : StronglySorted lexlt l -> NoDup l.
Proof.
  induction 1 as [|a l S IH F]; constructor; auto. intro H. rewrite Forall_forall in F. apply (lex_irrefl a). auto.
Qed.
Lemma vadd_inj m : forall a b, length a = length m -> length b = length m -> vadd m a = vadd m b -> a = b.
Proof.
  induction m as [|x m IH]; intros [|y a] [|z b] A B E; try discriminate; auto. cbn in *. inversion E. f_equal; [lia|]. apply IH; auto.
Qed.
Lemma NoDup_map_on {A B} (f : A -> B) l : NoDup l -> (forall a b, In a l -> In b l -> f a = f b -> a = b) -> NoDup (map f l).
Proof.
  induction 1 as [|x l N D IH]; intro H; cbn; constructor.
  - intro Q. apply in_map_iff in Q as (y & E & Y). apply H in E; [congruence|right; auto|left; auto].
  - apply IH. intros; apply H; auto; right; auto.
Qed.

Section Cells.
Variable dx : Z.
Hypothesis Hdx : 0 < dx.
Lemma floor_meets mi ma x : cfloor dx mi <= x < cceil dx ma <-> meets dx mi ma x.
Proof.
  unfold cfloor, cceil, meets. pose proof (Z.div_mod mi dx ltac:(lia)) as A. pose proof (Z.mod_pos_bound mi dx Hdx) as A'.
  pose proof (Z.div_mod (- ma) dx ltac:(lia)) as B. pose proof (Z.mod_pos_bound (- ma) dx Hdx) as B'.
  split; intros [P Q]; split; nia.
Qed.
Lemma extent_nonneg mi ma : mi <= ma -> 0 <= cceil dx ma - cfloor dx mi.
Proof.
  intro H. unfold cfloor, cceil. pose proof (Z.div_mod mi dx ltac:(lia)) as A. pose proof (Z.mod_pos_bound mi dx Hdx) as A'.
  pose proof (Z.div_mod (- ma) dx ltac:(lia)) as B. pose proof (Z.mod_pos_bound (- ma) dx Hdx) as B'. nia.
Qed.
Lemma extent_zero mi ma x : mi <= ma -> (cceil dx ma - cfloor dx mi <= 0 /\ x = cfloor dx mi) <-> (mi = ma /\ mi = x * dx).
Proof.
  intro H. unfold cfloor, cceil. pose proof (Z.div_mod mi dx ltac:(lia)) as A. pose proof (Z.mod_pos_bound mi dx Hdx) as A'.
  pose proof (Z.div_mod (- ma) dx ltac:(lia)) as B. pose proof (Z.mod_pos_bound (- ma) dx Hdx) as B'. split; intros [P Q]; [split; nia|]. subst ma.
  assert (x = mi / dx) by nia. split; [nia|auto].
Qed.
Lemma inner_meets mi ma x : mi <= ma -> (0 <= x - cfloor dx mi < Z.max 1 (cceil dx ma - cfloor dx mi)) <-> meets' dx mi ma x.
Proof.
  intro H. unfold meets'. rewrite <- floor_meets, <- (extent_zero mi ma x H). lia.
Qed.

Definition mins (bv : box) := map (cfloor dx) (fst bv).
Definition ext (bv : box) := vsub (map (cceil dx) (snd bv)) (mins bv).
Lemma ext_nonneg d bv : box_ok d bv -> Forall (fun n => 0 <= n) (ext bv) /\ length (ext bv) = d /\ length (mins bv) = d.
Proof.
  destruct bv as [mi ma]. unfold box_ok, ext, mins. cbn [fst snd]. intros (A & B & F). rewrite map_length. revert d A B. induction F; intros d A B; cbn in *; [auto|].
  destruct d as [|d]; [lia|]. destruct (IHF d ltac:(lia) ltac:(lia)) as (P & Q & R). split; [constructor; auto; apply extent_nonneg; auto|]. lia.
Qed.
Lemma inner_cover mi ma : Forall2 Z.le mi ma -> forall xs,
  (exists t, in_box (map (Z.max 1) (vsub (map (cceil dx) ma) (map (cfloor dx) mi))) t /\ xs = vadd (map (cfloor dx) mi) t) <->
  Forall2 (fun p x => meets' dx (fst p) (snd p) x) (combine mi ma) xs.
Proof.
  induction 1 as [|a b mi ma L F IH]; intro xs; cbn [map vsub combine].
  - split; [intros (t & T & ->); constructor|]. intro H. inversion H; subst. exists []. split; [constructor|reflexivity].
  - split.
    + intros (t & T & ->). inversion T as [|n u ns us U Us]; subst. cbn [vadd]. constructor.
      * cbn [fst snd]. apply inner_meets; auto. lia.
      * apply IH. exists us. auto.
    + intro H. inversion H as [|p x ps xs' P Ps]; subst. cbn [fst snd] in P. apply IH in Ps as (t & T & ->).
      exists ((x - cfloor dx a) :: t). split; [constructor; auto; apply inner_meets in P; auto|]. cbn [vadd]. f_equal. lia.
Qed.
Lemma box_covers d bv : (0 < d)%nat -> box_ok d bv -> forall c, (exists t, in_box (clamp (ext bv)) t /\ c = vadd (mins bv) t) <-> covers dx bv c.
Proof.
  intros Hd O c. destruct bv as [mi ma]. destruct O as (A & B & F). cbn [fst snd] in *. unfold ext, mins. cbn [fst snd].
  destruct F as [|x y mi ma L F]; [cbn in A; lia|]. cbn [map vsub clamp]. split.
  - intros (t & T & ->). inversion T as [|n u ns us U Us]; subst. cbn [vadd]. constructor.
    + apply floor_meets. lia.
    + apply inner_cover; auto. exists us. auto.
    + cbn in *; lia.
  - intro C. inversion C as [? ? z ? ? zs M Mi Le]; subst. apply inner_cover in Mi as (t & T & ->); auto. exists ((z - cfloor dx x) :: t). split.
    + constructor; auto. apply floor_meets in M. lia.
    + cbn [vadd]. f_equal. lia.
Qed.
Lemma in_box_length ns t : in_box ns t -> length t = length ns.
Proof. induction 1; cbn; auto. Qed.
Lemma clamp_length ns : length (clamp ns) = length ns.
Proof. destruct ns; cbn; auto. rewrite map_length. reflexivity. Qed.
(** the cells of a box: one list, without repetition, of the covered cells *)
Lemma cells_ok d bv : (0 < d)%nat -> box_ok d bv -> exists l, cells_run dx bv l /\ (forall l', cells_run dx bv l' -> l' = l) /\ NoDup l /\ forall c, In c l <-> covers dx bv c.
Proof.
  intros Hd O. destruct (ext_nonneg d bv O) as (N & L1 & L2).
  destruct (collapse_nonneg (ext bv)) as (l & F & V & I & S'); [intro E; rewrite E in L1; cbn in L1; lia|exact N|].
  exists (map (vadd (mins bv)) l). split; [exists F, l; split; auto; apply V; lia|]. split.
  { intros l' (f & l0 & V' & ->). f_equal. pose proof (visits_mono _ _ _ _ V' (f + F)%nat ltac:(lia)) as Q.
    pose proof (V (f + F)%nat ltac:(lia)) as Q'. unfold ext, mins in Q'. congruence. }
  assert (Ln : forall t, In t l -> length t = length (mins bv)) by (intros t T; apply I in T; apply in_box_length in T; rewrite clamp_length in T; lia).
  split; [apply NoDup_map_on; [apply sorted_nodup; auto|]; intros a b Ha Hb E; apply (vadd_inj (mins bv)); auto|].
  intro c. rewrite <- (box_covers d bv Hd O). rewrite in_map_iff. split; intros (t & A & B); exists t; [split; [apply I; auto|auto]|split; [auto|apply I; auto]].
Qed.
End Cells.

(** the placement kernels *)
Local Open Scope nat_scope.
Section Place.
Notation seg := (@fst nat nat).
Lemma cnt_rev k (l : list (nat * nat)) : CountProofs.cnt seg k (rev l) = CountProofs.cnt seg k l.
Proof. induction l as [|x l IH]; [reflexivity|]. cbn [rev]. rewrite cnt_app, IH. change (x :: l) with ([x] ++ l). rewrite cnt_app. lia. Qed.
Lemma downs_ok offs base : (forall k, k < length offs -> nth_error offs k = Some (base k)) -> forall ord cs, length cs = length offs ->
  (forall x, In x ord -> fst x < length cs) -> (forall k, k < length cs -> nth_error cs k = Some (CountProofs.cnt seg k ord)) ->
  exists ts, downs cs ord = Some ts /\ targets seg offs ts = Some (rev (places seg base (rev ord))).
Proof.
  intros Ho. induction ord as [|x r IH]; intros cs L S' C; [exists []; auto|]. cbn [downs rev].
  assert (Lx : fst x < length cs) by (apply S'; left; auto). rewrite (C _ Lx). cbn [bind].
  assert (E : CountProofs.cnt seg (fst x) (x :: r) = S (CountProofs.cnt seg (fst x) r)) by (change (x :: r) with ([x] ++ r); rewrite cnt_app, cnt_one, Nat.eqb_refl; lia).
  rewrite E. destruct (upd_some cs (fst x) (CountProofs.cnt seg (fst x) r)) as [cs' U]; [lia|]. rewrite U. cbn [bind].
  pose proof (upd_length _ _ _ _ U) as Lu. destruct (IH cs') as (ts & D & T).
  - lia.
  - intros y Y. rewrite Lu. apply S'. right; auto.
  - intros k Lk. rewrite Lu in Lk. destruct (Nat.eq_dec (fst x) k) as [<-|Ne]; [eapply upd_nth_eq; eauto|].
    rewrite (upd_nth_neq _ _ _ _ _ U) by auto. rewrite C by lia. change (x :: r) with ([x] ++ r). rewrite cnt_app, cnt_one. destruct (Nat.eqb_spec (fst x) k); [contradiction|]. f_equal.
  - rewrite D. cbn [bind]. eexists. split; [reflexivity|]. cbn [targets]. rewrite Ho by lia. cbn [bind]. rewrite T. cbn [bind]. rewrite places_app, rev_app_distr.
    cbn [places rev app]. rewrite cnt_rev. reflexivity.
Qed.
Lemma places_cover base bc (l : list (nat * nat)) : (forall x, In x l -> fst x < bc) -> (forall k, k < bc -> base k = offsets (fun i => CountProofs.cnt seg i l) k) ->
  (forall p e, In (p, e) (places seg base l) -> nth_error (CountProofs.bins seg bc l) p = Some e) /\ (forall p, p < length l -> In p (map fst (places seg base l))).
Proof.
  intros H Hb. split.
  - intros p e P. apply in_places in P as (pre & post & El & ->). rewrite Hb by (apply H; rewrite El; apply in_app_iff; right; left; auto). eapply bins_nth; eauto.
  - intros p Lp. rewrite <- (offsets_total seg bc l H) in Lp. destruct (offset_find _ bc p Lp) as (k & Lk & R).
    destruct (nth_occ seg k l (p - offsets (fun i => CountProofs.cnt seg i l) k) ltac:(lia)) as (pre & e & post & El & Ed & Ec).
    apply in_map_iff. exists (p, e). split; [reflexivity|]. apply in_places. exists pre, post. split; [exact El|]. subst k. rewrite Hb by auto. lia.
Qed.
Lemma cnt_perm k (l r : list (nat * nat)) : Permutation l r -> CountProofs.cnt seg k l = CountProofs.cnt seg k r.
Proof.
  intro P. unfold CountProofs.cnt. induction P; cbn; auto; [destruct (fst x =? k); cbn; auto|destruct (fst x =? k), (fst y =? k); cbn; auto|congruence].
Qed.
Lemma offsets_ext f g n : (forall i, i < n -> f i = g i) -> offsets f n = offsets g n.
Proof. induction n as [|n IH]; intro H; cbn; auto. rewrite IH by (intros; apply H; lia). rewrite H by lia. reflexivity. Qed.

(** the result of the kernels: the offsets delimit, for every cell number, the primitives of the cell *)
Lemma place_ok nc its r : (forall x, In x its -> fst x < nc) -> place_run nc its r ->
  exists offs inds o, r = Some (offs, inds) /\ Permutation o its /\ length offs = S nc /\ inds = map snd (CountProofs.bins seg (S nc) o) /\
    forall k, k < S nc -> nth_error offs k = Some (offsets (fun i => CountProofs.cnt seg i o) k).
Proof.
  intros H (o1 & o3 & order & garbage & P1 & P3 & M).
  assert (H1 : forall x, In x o1 -> fst x < S nc) by (intros x X; apply (Permutation_in _ P1) in X; apply H in X; lia).
  assert (H3 : forall x, In x (rev o3) -> fst x < S nc) by (intros x X; apply in_rev in X; apply (Permutation_in _ P3) in X; apply H in X; lia).
  destruct (count_sort_ok seg (S nc) o1 H1) as (cs & ts & ws & Et & Lc & Cc & Co & _). rewrite Et in M. cbn [bind] in M.
  rewrite (Co nc) in M by lia. cbn [bind] in M.
  assert (Cn : forall k, CountProofs.cnt seg k o1 = CountProofs.cnt seg k (rev o3)) by (intro k; apply cnt_perm; rewrite P1, <- P3; apply Permutation_rev).
  assert (Of : forall k, offsets (fun i => CountProofs.cnt seg i o1) k = offsets (fun i => CountProofs.cnt seg i (rev o3)) k) by (intro k; apply offsets_ext; intros; apply Cn).
  assert (Le : length (escan 0 cs) = S nc) by (rewrite escan_length; auto).
  destruct (downs_ok (escan 0 cs) (offsets (fun i => CountProofs.cnt seg i o1))) with (ord := o3) (cs := cs) as (ts' & D & T).
  { intros k Lk. apply Co. lia. } { lia. } { intros x X. rewrite Lc. apply H3. apply -> in_rev. auto. }
  { intros k Lk. rewrite Cc by lia. f_equal. rewrite Cn. apply cnt_rev. }
  rewrite D in M. cbn [bind] in M. rewrite T in M. cbn [bind] in M. destruct M as (Lg & Po & ->).
  destruct (places_cover (offsets (fun i => CountProofs.cnt seg i o1)) (S nc) (rev o3) H3 (fun k _ => Of k)) as (A & B).
  pose proof (Permutation_length (bins_perm seg (S nc) (rev o3) H3)) as Lb.
  assert (Lg' : length garbage = length (rev o3)).
  { rewrite Lg, Of. rewrite <- (offsets_total seg nc (rev o3)); [reflexivity|]. intros x X. apply in_rev in X. apply (Permutation_in _ P3) in X. auto. }
  rewrite (stores_map snd (CountProofs.bins seg (S nc) (rev o3)) (rev (places seg (offsets (fun i => CountProofs.cnt seg i o1)) (rev o3))) order garbage).
  - rewrite skipn_all2 by lia. rewrite app_nil_r. cbn [bind]. do 2 eexists. exists (rev o3). split; [reflexivity|]. split; [rewrite <- P3; symmetry; apply Permutation_rev|].
    split; [auto|]. split; [reflexivity|]. intros k Lk. rewrite Co by auto. rewrite Of. reflexivity.
  - lia.
  - intros p e P. apply in_rev in P. auto.
  - intros p Lp. rewrite map_rev. apply -> in_rev. apply B. lia.
  - exact Po.
Qed.
Lemma read_ok inds : forall n st, st + n <= length inds -> read inds st n = Some (firstn n (skipn st inds)).
Proof.
  induction n as [|n IH]; intros st L; [reflexivity|]. cbn [read]. destruct (nth_error_lt_some inds st) as [x X]; [lia|]. rewrite X. cbn [bind]. rewrite IH by lia. cbn [bind].
  assert (E : skipn st inds = x :: skipn (S st) inds).
  { clear - X. revert st X. induction inds as [|y l IHl]; intros [|st] X; try discriminate; cbn in *; [congruence|]. rewrite (IHl st X). reflexivity. }
  rewrite E. reflexivity.
Qed.
Lemma read_segment nc o k offs inds : k < nc -> (forall x, In x o -> fst x < nc) -> inds = map snd (CountProofs.bins seg (S nc) o) ->
  (forall k, k < S nc -> nth_error offs k = Some (offsets (fun i => CountProofs.cnt seg i o) k)) ->
  bind (nth_error offs k) (fun st => bind (nth_error offs (S k)) (fun ed => if ed <? st then None else read inds st (ed - st)))
  = Some (map snd (filter (fun x => fst x =? k) o)).
Proof.
  intros Lk H -> C. rewrite !C by lia. cbn [bind offsets]. destruct (Nat.ltb_spec (offsets (fun i => CountProofs.cnt seg i o) k + CountProofs.cnt seg k o) (offsets (fun i => CountProofs.cnt seg i o) k)); [lia|].
  replace (_ + _ - _) with (CountProofs.cnt seg k o) by lia. rewrite read_ok.
  - rewrite skipn_map, firstn_map. rewrite (bins_segment seg (S nc) o k) by lia. reflexivity.
  - rewrite map_length. rewrite <- (Permutation_length (bins_perm seg (S nc) o ltac:(intros x X; apply H in X; lia))).
    rewrite <- (offsets_total seg nc o H). clear - Lk. revert k Lk. induction nc as [|n IH]; intros k Lk; [lia|]. cbn. destruct (Nat.eq_dec k n) as [->|]; [lia|].
    specialize (IH k ltac:(lia)). lia.
Qed.
End Place.
