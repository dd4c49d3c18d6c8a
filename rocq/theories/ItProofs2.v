(** C92: zip, enumerate and chunks of ranges that behave. *)
From Verif Require Import Prelude ItModel ItSpec ItProofs.
From Coq Require Import Lia.
Open Scope Z_scope.

Lemma shortest_le ls l : In l ls -> (shortest ls <= length l)%nat.
Proof.
  induction ls as [|a ls IH]; [intros []|]. intros [-> |H]; destruct ls as [|b ls].
  - cbn. lia.
  - change (shortest (l :: b :: ls)) with (Nat.min (length l) (shortest (b :: ls))). lia.
  - destruct H.
  - change (shortest (a :: b :: ls)) with (Nat.min (length a) (shortest (b :: ls))). specialize (IH H). lia.
Qed.
Lemma shortest_in ls : ls <> [] -> exists l, In l ls /\ length l = shortest ls.
Proof.
  induction ls as [|a ls IH]; [congruence|]. intros _. destruct ls as [|b ls]; [exists a; cbn; auto|].
  change (shortest (a :: b :: ls)) with (Nat.min (length a) (shortest (b :: ls))).
  destruct (Nat.le_ge_cases (length a) (shortest (b :: ls))) as [L|L].
  - exists a. split; [now left|]. lia.
  - destruct (IH ltac:(congruence)) as (l & I & E). exists l. split; [now right|]. lia.
Qed.
Section Maps.
Context {C : Type}.
Lemma any2_map {A} (f : A -> A -> bool) (g h : C -> A) cs : any2 f (map g cs) (map h cs) = existsb (fun c => f (g c) (h c)) cs.
Proof. induction cs; cbn; [reflexivity|]. now rewrite IHcs. Qed.
Lemma omap2_map {A B} (f : A -> A -> option B) (g h : C -> A) (k : C -> B) cs : (forall c, In c cs -> f (g c) (h c) = Some (k c)) ->
  omap2 f (map g cs) (map h cs) = Some (map k cs).
Proof. induction cs as [|a cs IH]; cbn; intros H; [reflexivity|]. rewrite H, IH; auto. Qed.
Lemma omap_comp {A B} (f : A -> option B) (g : C -> A) (k : C -> B) cs : (forall c, In c cs -> f (g c) = Some (k c)) -> omap f (map g cs) = Some (map k cs).
Proof. induction cs as [|a cs IH]; cbn; intros H; [reflexivity|]. rewrite H, IH; auto. Qed.
End Maps.
Lemma fold_min ds M v : In v ds -> (forall d, In d ds -> v <= d) -> v <= M -> fold_left Z.min ds M = v.
Proof.
  revert M. induction ds as [|a ds IH]; cbn; intros M I L H; [destruct I|]. assert (v <= a) by (apply L; now left).
  destruct I as [-> |I].
  - rewrite Z.min_r by lia. clear IH. assert (L' : forall d, In d ds -> v <= d) by auto. clear L. induction ds as [|b ds IH]; cbn; [reflexivity|].
    assert (v <= b) by (apply L'; now left). rewrite Z.min_l by lia. apply IH. intros d Hd. apply L'. now right.
  - apply IH; auto. lia.
Qed.
Lemma fold_max_in l m x : In x l -> x <= fold_right Z.max m l.
Proof. induction l as [|a l IH]; cbn; [tauto|]. intros [-> |H]; [lia|]. specialize (IH H). lia. Qed.
Lemma fold_max_bound l m u : m <= u -> (forall x, In x l -> x <= u) -> m <= fold_right Z.max m l <= u.
Proof. intros H. induction l as [|a l IH]; cbn; intros L; [lia|]. assert (a <= u) by auto. assert (m <= fold_right Z.max m l <= u) by auto. lia. Qed.

Section Zip.
Record part := Part { p_r : iter * iter; p_xs : list value; p_at : nat -> iter }.
Variable cs : list part.
Hypothesis (NE : cs <> []) (G : forall c, In c cs -> good (p_r c) (p_xs c) (p_at c)).
Let ls := map p_xs cs.
Let n := shortest ls.
Lemma n_le c : In c cs -> (n <= length (p_xs c))%nat.
Proof. intros H. apply shortest_le. unfold ls. now apply in_map. Qed.
Lemma n_in : exists c, In c cs /\ length (p_xs c) = n.
Proof.
  destruct (shortest_in ls) as (l & I & E); [unfold ls; destruct cs; [congruence|discriminate]|].
  unfold ls in I. apply in_map_iff in I as (c & <- & I). eauto.
Qed.
Definition rows : list value := map (fun i => VTup (row ls i)) (seq 0 n).
Lemma rows_length : length rows = n.
Proof. unfold rows. now rewrite map_length, seq_length. Qed.
Lemma zip_good : good (zip (map p_r cs)) rows (fun i => Zip (map (fun c => p_at c i) cs)).
Proof.
  assert (B : forall i, (i <= n)%nat -> map dbits (map (fun c => p_at c i) cs) = map (fun c => dbits (fst (p_r c))) cs).
  { intros i Hi. rewrite map_map. apply map_ext_in. intros c Hc. apply (g_bits _ _ _ (G c Hc)). pose proof (n_le c Hc). lia. }
  destruct n_in as (c0 & I0 & E0).
  assert (M0 : Z.of_nat n <= 2 ^ (fold_right Z.max 32 (map (fun c => dbits (fst (p_r c))) cs) - 1) - 1).
  { rewrite <- E0. pose proof (g_max _ _ _ (G _ I0)). pose proof (g_wide _ _ _ (G _ I0)).
    pose proof (fold_max_in _ 32 _ (in_map (fun c => dbits (fst (p_r c))) cs c0 I0)).
    assert (2 ^ (dbits (fst (p_r c0)) - 1) <= 2 ^ (fold_right Z.max 32 (map (fun c => dbits (fst (p_r c))) cs) - 1)) by (apply Z.pow_le_mono_r; lia). lia. }
  assert (DD : forall i j v, (i <= n)%nat -> (forall c, In c cs -> exists d, dist (p_at c i) (j c) = Some d /\ v <= d) ->
    (exists c, In c cs /\ dist (p_at c i) (j c) = Some v) -> v <= Z.of_nat n ->
    dist (Zip (map (fun c => p_at c i) cs)) (Zip (map j cs)) = Some v).
  { intros i j v Hi Ha (c & Hc & Hd) Hv. cbn [dist].
    rewrite (omap2_map dist (fun c => p_at c i) j (fun c => match dist (p_at c i) (j c) with Some d => d | None => 0 end)).
    2:{ intros c' Hc'. destruct (Ha c' Hc') as (d & -> & _). reflexivity. }
    cbn [obind]. f_equal. apply fold_min.
    - apply in_map_iff. exists c. rewrite Hd. auto.
    - intros d Id. apply in_map_iff in Id as (c' & <- & Hc'). destruct (Ha c' Hc') as (d & -> & L). exact L.
    - cbn [dbits]. rewrite B by exact Hi. lia. }
  split; rewrite ?rows_length; unfold zip; cbn [fst snd].
  - f_equal. rewrite map_map. apply map_ext_in. intros c Hc. apply (g_start _ _ _ (G c Hc)).
  - intros i j H. cbn [adv]. rewrite (omap_comp _ _ (fun c => p_at c (i + j)%nat)); [reflexivity|].
    intros c Hc. apply (g_adv _ _ _ (G c Hc)). pose proof (n_le c Hc). lia.
  - intros i H. cbn [deref]. rewrite (omap_comp _ _ (fun c => nth i (p_xs c) (VInt 0))).
    + cbn [obind]. unfold rows. rewrite (nth_indep _ (VInt 0) (VTup (row ls 0))) by (rewrite map_length, seq_length; lia).
      rewrite (map_nth (fun i => VTup (row ls i))), seq_nth by lia. do 2 f_equal. unfold row, ls. now rewrite map_map.
    + intros c Hc. apply (g_deref _ _ _ (G c Hc)). pose proof (n_le c Hc). lia.
  - intros i j Hi Hj. cbn [eq_it]. rewrite any2_map. destruct (Nat.eqb_spec i j) as [-> |N].
    + apply existsb_exists. exists c0. split; [exact I0|]. rewrite (g_eq _ _ _ (G _ I0)) by lia. apply Nat.eqb_refl.
    + apply Bool.not_true_is_false. intros X. apply existsb_exists in X as (c & Hc & X). pose proof (n_le c Hc).
      rewrite (g_eq _ _ _ (G c Hc)) in X by lia. now apply Nat.eqb_eq in X.
  - intros i j H. apply DD; [lia| | |lia].
    + intros c Hc. pose proof (n_le c Hc). eexists. split; [apply (g_dist _ _ _ (G c Hc)); lia|]. lia.
    + exists c0. split; [exact I0|]. apply (g_dist _ _ _ (G _ I0)). lia.
  - intros i H. cbn [eq_it]. rewrite map_map, any2_map. destruct (Nat.eqb_spec i n) as [-> |N].
    + apply existsb_exists. exists c0. split; [exact I0|]. rewrite (g_end _ _ _ (G _ I0)) by lia. apply Nat.eqb_eq. lia.
    + apply Bool.not_true_is_false. intros X. apply existsb_exists in X as (c & Hc & X). pose proof (n_le c Hc).
      rewrite (g_end _ _ _ (G c Hc)) in X by lia. apply Nat.eqb_eq in X. lia.
  - intros i H. rewrite map_map. apply DD; [lia| | |lia].
    + intros c Hc. pose proof (n_le c Hc). eexists. split; [apply (g_dist_end _ _ _ (G c Hc)); lia|]. lia.
    + exists c0. split; [exact I0|]. rewrite (g_dist_end _ _ _ (G _ I0)) by lia. now rewrite E0.
  - intros i H. cbn [dbits]. rewrite B by exact H. now rewrite !map_map.
  - cbn [dbits]. rewrite !map_map. lia.
  - cbn [dbits]. rewrite !map_map. apply fold_max_bound; [lia|]. intros x Hx. apply in_map_iff in Hx as (c & <- & Hc). apply (g_wide _ _ _ (G c Hc)).
Qed.
End Zip.

Lemma unit_good m : 0 <= m <= 2 ^ 63 - 1 -> good (Unit 0, Unit m) (steps 0 1 (Z.to_nat m)) (fun i => Unit (Z.of_nat i)).
Proof.
  intros Hm. assert (W : wide sint) by (right; reflexivity).
  assert (A : forall z, - 2 ^ 63 <= z <= 2 ^ 63 - 1 -> arith sint z = Some z) by (intros z Hz; apply arith_id; [exact W|exact Hz]).
  split; rewrite ?steps_length; cbn [fst snd].
  - reflexivity.
  - intros i j H. cbn [adv]. rewrite A by lia. cbn. do 2 f_equal. lia.
  - intros i H. cbn [deref]. rewrite steps_nth by exact H. do 2 f_equal. lia.
  - intros i j Hi Hj. cbn [eq_it]. destruct (Nat.eqb_spec i j) as [-> |N]; [apply Z.eqb_refl|]. apply Z.eqb_neq. lia.
  - intros i j H. cbn [dist]. rewrite A by lia. f_equal.
  - intros i H. cbn [eq_it]. destruct (Nat.eqb_spec i (Z.to_nat m)) as [-> |N]; [apply Z.eqb_eq; lia|]. apply Z.eqb_neq. lia.
  - intros i H. cbn [dist]. rewrite A by lia. f_equal. lia.
  - reflexivity.
  - cbn [dbits]. lia.
  - cbn. lia.
Qed.

Definition source_rect' (P : source -> Prop) (HI : forall t b e, P (Ints t b e)) (HA : forall p i n, P (Array p i n))
  (HZ : forall ss, Forall P ss -> P (Zipped ss)) (HE : forall ss, Forall P ss -> P (Enumerated ss)) : forall s, P s :=
  fix go s := match s with
  | Ints t b e => HI t b e | Array p i n => HA p i n
  | Zipped ss => HZ ss ((fix all l : Forall P l := match l with [] => Forall_nil P | x :: r => Forall_cons x (go x) (all r) end) ss)
  | Enumerated ss => HE ss ((fix all l : Forall P l := match l with [] => Forall_nil P | x :: r => Forall_cons x (go x) (all r) end) ss)
  end.
Lemma parts ss : Forall (fun s => valid s -> exists r at_, build s = Some r /\ good r (elements s) at_) ss ->
  fold_right (fun x P => valid x /\ P) True ss ->
  exists cs, omap build ss = Some (map p_r cs) /\ map p_xs cs = map elements ss /\ (forall c, In c cs -> good (p_r c) (p_xs c) (p_at c)).
Proof.
  induction 1 as [|s ss H F IH]; cbn; intros V; [exists []; cbn; auto; split; [|split]; auto; tauto|].
  destruct V as [V1 V2]. destruct (H V1) as (r & a & B & Gd). destruct (IH V2) as (cs & O & X & Gs).
  exists (Part r (elements s) a :: cs). rewrite B, O. cbn. rewrite X. split; [reflexivity|]. split; [reflexivity|].
  intros c [<- |I]; auto.
Qed.
Lemma build_good s : valid s -> exists r at_, build s = Some r /\ good r (elements s) at_.
Proof.
  induction s as [t b e|p i n|ss IH|ss IH] using source_rect'; cbn [valid build elements].
  - intros (W & H1 & H2 & H3). exact (ints_good t b e W H1 H2 H3).
  - intros H. eexists _, _. split; [reflexivity|]. now apply array_good.
  - intros (NE & V). destruct (parts ss IH V) as (cs & O & X & Gs). rewrite O. cbn [obind]. eexists _, _. split; [reflexivity|].
    assert (N : cs <> []) by (intros ->; destruct ss; [congruence|discriminate]).
    pose proof (zip_good cs N Gs) as Z. unfold rows in Z. rewrite X in Z. exact Z.
  - intros (NE & V). destruct (parts ss IH V) as (cs & O & X & Gs). rewrite O. cbn [obind]. unfold enumerate.
    set (u := Part (Unit 0, Unit (2 ^ 63 - 1)) (steps 0 1 (Z.to_nat (2 ^ 63 - 1))) (fun i => Unit (Z.of_nat i))).
    assert (Gu : forall c, In c (u :: cs) -> good (p_r c) (p_xs c) (p_at c)).
    { intros c [<- |I]; [|auto]. apply unit_good. lia. }
    pose proof (zip_good (u :: cs) ltac:(discriminate) Gu) as Z. unfold rows in Z.
    change (map p_r (u :: cs)) with ((Unit 0, Unit (2 ^ 63 - 1)) :: map p_r cs) in Z.
    eexists _, _. split; [reflexivity|].
    assert (N : cs <> []) by (intros ->; destruct ss; [congruence|discriminate]).
    assert (E : shortest (map p_xs (u :: cs)) = shortest (map elements ss)).
    { rewrite <- X. destruct cs as [|c cs]; [congruence|]. set (q := c :: cs) in *.
      change (shortest (map p_xs (u :: q))) with (Nat.min (length (p_xs u)) (shortest (map p_xs q))).
      apply Nat.min_r. unfold u. cbn [p_xs]. rewrite steps_length.
      pose proof (shortest_le (map p_xs q) (p_xs c) (or_introl eq_refl)). pose proof (Gs c (or_introl eq_refl)) as Gc.
      pose proof (g_max _ _ _ Gc). pose proof (g_wide _ _ _ Gc). assert (2 ^ (dbits (fst (p_r c)) - 1) <= 2 ^ 63) by (apply Z.pow_le_mono_r; lia). lia. }
    rewrite E in Z.
    replace (map (fun i => VTup (VInt (Z.of_nat i) :: row (map elements ss) i)) (seq 0 (shortest (map elements ss))))
      with (map (fun i => VTup (row (map p_xs (u :: cs)) i)) (seq 0 (shortest (map elements ss)))); [exact Z|].
    apply map_ext_in. intros i Hi. apply in_seq in Hi. f_equal. cbn [map row]. unfold row at 1. cbn [map]. rewrite X. f_equal.
    unfold u. cbn [p_xs]. rewrite steps_nth; [f_equal; lia|]. rewrite <- E in Hi.
    pose proof (shortest_le (map p_xs (u :: cs)) (p_xs u) (or_introl eq_refl)) as L. unfold u at 2 in L. cbn [p_xs] in L. rewrite steps_length in L. lia.
Qed.

(** a part of a range that behaves *)
Lemma sub_good r xs at_ i j : good r xs at_ -> (i <= j <= length xs)%nat ->
  good (at_ i, at_ j) (firstn (j - i) (skipn i xs)) (fun k => at_ (i + k)%nat).
Proof.
  intros G H. assert (L : length (firstn (j - i) (skipn i xs)) = (j - i)%nat) by (rewrite firstn_length, skipn_length; lia).
  split; rewrite ?L; cbn [fst snd].
  - f_equal. lia.
  - intros a b Hab. rewrite (g_adv _ _ _ G) by lia. f_equal. f_equal. lia.
  - intros a Ha. rewrite (g_deref _ _ _ G) by lia. f_equal.
    assert (E : nth a (firstn (j - i) (skipn i xs)) (VInt 0) = nth a (skipn i xs) (VInt 0)).
    { rewrite <- (firstn_skipn (j - i) (skipn i xs)) at 2. rewrite app_nth1 by lia. reflexivity. }
    rewrite E. clear -H Ha. assert (Hi : (i <= length xs)%nat) by lia. clear -Hi. revert i Hi. induction xs as [|x xs IH]; intros [|i] Hi; cbn in *; try reflexivity; try lia.
    apply IH. lia.
  - intros a b Ha Hb. rewrite (g_eq _ _ _ G) by lia. destruct (Nat.eqb_spec a b) as [-> |N]; [apply Nat.eqb_refl|]. apply Nat.eqb_neq. lia.
  - intros a b Hab. rewrite (g_dist _ _ _ G) by lia. f_equal. lia.
  - intros a Ha. rewrite (g_eq _ _ _ G) by lia. destruct (Nat.eqb_spec a (j - i)) as [-> |N]; [apply Nat.eqb_eq; lia|]. apply Nat.eqb_neq. lia.
  - intros a Ha. rewrite (g_dist _ _ _ G) by lia. f_equal. lia.
  - intros a Ha. rewrite !(g_bits _ _ _ G) by lia. reflexivity.
  - rewrite (g_bits _ _ _ G) by lia. pose proof (g_max _ _ _ G). lia.
  - rewrite (g_bits _ _ _ G) by lia. apply (g_wide _ _ _ G).
Qed.
