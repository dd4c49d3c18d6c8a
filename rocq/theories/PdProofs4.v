(* Three dimensions. *)
From Coq Require Import Reals Lra.
From Verif Require Import Prelude PdModel PdSpec PdProofs PdProofs2.
Local Open Scope R_scope.

(* ---- sharing the work ---- *)
Lemma flat_map_split {A B} (f g : A -> list B) l :
  Permutation (flat_map (fun a => f a ++ g a) l) (flat_map f l ++ flat_map g l).
Proof.
  induction l as [|a l IH]; cbn; [constructor|]. rewrite IH, <- !app_assoc. apply Permutation_app_head.
  rewrite !app_assoc. apply Permutation_app_tail, Permutation_app_comm.
Qed.
Lemma one_share (x : nat) key ids : NoDup ids ->
  flat_map (fun id => if Nat.eqb key id then [x] else []) ids = if existsb (Nat.eqb key) ids then [x] else [].
Proof.
  induction 1 as [|a l Ha _ IH]; [reflexivity|]. cbn. rewrite IH. destruct (Nat.eqb_spec key a) as [<-|]; [|reflexivity].
  cbn. destruct (existsb (Nat.eqb key) l) eqn:E; [|reflexivity].
  apply existsb_exists in E as (y & I & Q). apply Nat.eqb_eq in Q. subst. contradiction.
Qed.
Lemma buckets w xs : (0 < w)%nat ->
  Permutation (flat_map (fun id => filter (fun i => Nat.eqb (Nat.modulo i w) id) xs) (seq 0 w)) xs.
Proof.
  intros Hw. induction xs as [|x xs IH].
  - clear Hw. induction (seq 0 w); cbn; auto.
  - transitivity (flat_map (fun id => (if Nat.eqb (Nat.modulo x w) id then [x] else []) ++ filter (fun i => Nat.eqb (Nat.modulo i w) id) xs) (seq 0 w)).
    + apply Permutation_refl'. apply flat_map_ext. intros id. cbn. now destruct (Nat.eqb _ id).
    + rewrite flat_map_split, one_share by apply seq_NoDup. rewrite IH.
      assert (E : existsb (Nat.eqb (Nat.modulo x w)) (seq 0 w) = true).
      { apply existsb_exists. exists (Nat.modulo x w). rewrite in_seq, Nat.eqb_refl. pose proof (Nat.mod_upper_bound x w). split; [lia|reflexivity]. }
      rewrite E. reflexivity.
Qed.
Lemma flat_map_perm {A B} (f : A -> list B) l l' : Permutation l l' -> Permutation (flat_map f l) (flat_map f l').
Proof.
  induction 1; cbn; auto; [now apply Permutation_app_head| |etransitivity; eauto].
  rewrite !app_assoc. apply Permutation_app_tail, Permutation_app_comm.
Qed.
Lemma flat_map_flat_map {A B C} (f : B -> list C) (g : A -> list B) l :
  flat_map f (flat_map g l) = flat_map (fun a => flat_map f (g a)) l.
Proof. induction l as [|a l IH]; [reflexivity|]. cbn. now rewrite flat_map_app, IH. Qed.
Lemma all_elements {A} (data : list A) :
  flat_map (fun i => match nth_error data i with Some q => [q] | None => [] end) (seq 0 (length data)) = data.
Proof.
  induction data as [|a l IH]; [reflexivity|]. cbn [length seq flat_map nth_error app]. f_equal.
  rewrite <- seq_shift, flat_map_concat_map, map_map, <- flat_map_concat_map. exact IH.
Qed.

Section Three.
Variables (r : R) (lo hi : pt3) (feasible : pt3 -> bool).
Notation copies := (copies r lo hi feasible).
Notation sample3 := (sample3 r lo hi feasible).
Lemma workers w data : (0 < w)%nat -> Permutation (sample3 w data) (flat_map copies data).
Proof.
  intros Hw. unfold PdModel.sample3, share. rewrite <- flat_map_flat_map. apply flat_map_perm.
  rewrite <- flat_map_flat_map. etransitivity; [apply flat_map_perm, buckets, Hw|]. now rewrite all_elements.
Qed.

(* ---- which points ---- *)
Lemma inside_spec p : inside lo hi p = true <-> in_box3 lo hi p.
Proof.
  unfold inside, in_box3. rewrite negb_true_iff, !orb_false_iff.
  assert (Q : forall x a b, (if Rlt_dec x a then true else if Rlt_dec b x then true else false) = false <-> a <= x <= b).
  { intros x a b. destruct (Rlt_dec x a); [split; [discriminate|lra]|]. destruct (Rlt_dec b x); [split; [discriminate|lra]|]. split; [lra|auto]. }
  rewrite !Q. tauto.
Qed.
Lemma shifted_laid q k : shifted r lo q k = laid_out r lo q k.
Proof. destruct k as [[a b] c]. unfold shifted, laid_out, translate, box_length. cbn. f_equal; ring. Qed.
Hypothesis Hr : 0 < r.
Lemma tile_range l u q k : -60 <= q <= 60 -> l <= l + r * (q + 120 * IZR k) <= u -> (0 <= k < offset_number r (u - l))%Z.
Proof.
  intros Hq [H1 H2]. unfold offset_number, box_length.
  assert (A : 0 <= q + 120 * IZR k). { apply Rmult_le_reg_l with r; lra. }
  split.
  - apply IZR_lt_le. lra.
  - pose proof (ceil_bounds ((u - l) / (120 * r))) as [B _]. set (c := ceil _) in *.
    assert (B' : u - l <= IZR c * (120 * r)).
    { replace (u - l) with ((u - l) / (120 * r) * (120 * r)) by (field; lra). apply Rmult_le_compat_r; lra. }
    assert (r * (q + 120 * IZR k) <= r * (120 * IZR c)) by lra.
    assert (q + 120 * IZR k <= 120 * IZR c) by (apply Rmult_le_reg_l with r; lra).
    assert (k <= c)%Z by (apply IZR_lt_le; lra). lia.
Qed.
Lemma in_copies q p : within60 q ->
  (In p (copies q) <-> feasible p = true /\ in_box3 lo hi p /\ exists k, p = laid_out r lo q k).
Proof.
  intros (Q0 & Q1 & Q2). unfold PdModel.copies. rewrite filter_In, andb_true_iff, inside_spec, in_map_iff. split.
  - intros ((k & <- & _) & F & I). split; [exact F|]. split; [exact I|]. exists k. apply shifted_laid.
  - intros (F & I & k & E). split; [|tauto]. exists k. rewrite shifted_laid. split; [now symmetry|].
    subst p. destruct k as [[a b] c]. unfold in_box3, laid_out, translate in I. cbn in I. destruct I as (I0 & I1 & I2).
    apply in_prod; [apply in_prod|]; apply in_zrange; [apply (tile_range _ _ (x0 q))|apply (tile_range _ _ (x1 q))|apply (tile_range _ _ (x2 q))]; assumption.
Qed.

(* ---- distances ---- *)
Lemma dist3_laid q q' k k' : dist3 (laid_out r lo q k) (laid_out r lo q' k') =
  r * dist3 q (translate q' (let '(a, b, c) := k in let '(a', b', c') := k' in (a' - a, b' - b, c' - c)%Z)).
Proof.
  destruct k as [[a b] c], k' as [[a' b'] c']. unfold dist3, laid_out, translate. cbn. rewrite !minus_IZR.
  match goal with |- sqrt ?A = r * sqrt ?B => replace A with ((r * r) * B) by ring end.
  rewrite sqrt_mult_alt by (apply Rle_0_sqr). now rewrite sqrt_square by lra.
Qed.
Lemma tile_list {A K B} (f : A -> K -> B) (P : B -> bool) (As : list A) (Ks : list K) :
  flat_map (fun a => filter P (map (f a) Ks)) As = map (fun ak => f (fst ak) (snd ak)) (filter (fun ak => P (f (fst ak) (snd ak))) (list_prod As Ks)).
Proof.
  induction As as [|a As IH]; [reflexivity|]. cbn. rewrite filter_app, map_app, <- IH. f_equal.
  clear IH. induction Ks as [|k Ks IH]; [reflexivity|]. cbn. destruct (P (f a k)); cbn; now rewrite IH.
Qed.
Lemma NoDup_list_prod {A B} (l : list A) (l' : list B) : NoDup l -> NoDup l' -> NoDup (list_prod l l').
Proof.
  intros H H'. induction H as [|a l Ha H IH]; cbn; [constructor|].
  assert (D : NoDup (map (fun y => (a, y)) l')).
  { clear - H'. induction H' as [|b l' Hb H' IH']; cbn; constructor; auto. intros I. apply in_map_iff in I as (x & E & I). congruence. }
  induction l' as [|b l' IH'] in D, IH |- *; [exact IH|].
  clear IH'. revert D IH. generalize (b :: l') as m. intros m D IH.
  assert (S : forall x, In x (map (fun y => (a, y)) m) -> ~ In x (list_prod l m)).
  { intros x I J. apply in_map_iff in I as (y & <- & _). apply in_prod_iff in J as [J _]. contradiction. }
  revert D S. generalize (list_prod l m) IH. intros t Ht. induction (map (fun y => (a, y)) m) as [|x xs IHx]; intros D S; [exact Ht|].
  inversion D; subst. cbn. constructor.
  - rewrite in_app_iff. intros [I|I]; [contradiction|]. exact (S x (or_introl eq_refl) I).
  - apply IHx; auto. intros z Z. apply S. now right.
Qed.
Lemma NoDup_zrange a b : NoDup (zrange a b).
Proof. unfold zrange. apply FinFun.Injective_map_NoDup; [intros x y E; lia|apply seq_NoDup]. Qed.
Lemma apart_perm {A} (d : A -> A -> R) l l' : Permutation l l' -> apart d r l -> apart d r l'.
Proof.
  intros P H. apply Permutation_nth_error in P as (_ & f & Hf & E).
  intros i j p q N Hp Hq. rewrite E in Hp, Hq. apply (H (f i) (f j) p q); auto.
Qed.
Lemma sample3_apart w data : tile_apart data -> apart dist3 r (sample3 w data).
Proof.
  intros T. destruct w as [|w]; [intros i j p q _ Hp; destruct i; discriminate|].
  eapply apart_perm; [symmetry; apply workers; lia|].
  destruct data as [|d0 data0] eqn:Ed; [intros i j p q _ Hp; destruct i; discriminate|]. rewrite <- Ed in *.
  set (Ks := list_prod (list_prod (zrange 0 (offset_number r (x0 hi - x0 lo))) (zrange 0 (offset_number r (x1 hi - x1 lo)))) (zrange 0 (offset_number r (x2 hi - x2 lo)))).
  assert (E : flat_map copies data = flat_map (fun i => filter (fun p => feasible p && inside lo hi p) (map ((fun i => shifted r lo (nth i data d0)) i) Ks)) (seq 0 (length data))).
  { rewrite <- (all_elements data) at 1. rewrite flat_map_flat_map. rewrite !flat_map_concat_map. f_equal. apply map_ext_in.
    intros i I. apply in_seq in I. rewrite (nth_error_nth' data d0) by lia. cbn. now rewrite app_nil_r. }
  rewrite E, tile_list. set (L := filter _ _).
  assert (ND : NoDup L).
  { apply NoDup_filter, NoDup_list_prod; [apply seq_NoDup|]. repeat apply NoDup_list_prod; apply NoDup_zrange. }
  assert (RL : forall a, In a L -> (fst a < length data)%nat).
  { intros [i k] I. apply filter_In in I as [I _]. apply in_prod_iff in I as [I _]. apply in_seq in I. cbn. lia. }
  intros i j p q Hij Hp Hq. rewrite nth_error_map in Hp, Hq.
  destruct (nth_error L i) as [[a k]|] eqn:Na; [|discriminate]. destruct (nth_error L j) as [[b k']|] eqn:Nb; [|discriminate].
  cbn in Hp, Hq. injection Hp as <-. injection Hq as <-. rewrite !shifted_laid, dist3_laid.
  pose proof (RL _ (nth_error_In _ _ Na)) as La. pose proof (RL _ (nth_error_In _ _ Nb)) as Lb. cbn in La, Lb.
  set (dk := let '(a, b, c) := k in _).
  assert (Hd : 1 <= dist3 (nth a data d0) (translate (nth b data d0) dk)).
  { apply (T a b); [now apply nth_error_nth'|now apply nth_error_nth'|].
    destruct (Nat.eq_dec a b) as [<-|]; [|now left]. right. intros C. apply Hij.
    apply (proj1 (NoDup_nth_error L) ND i j); [eapply nth_error_some_lt; eauto|]. rewrite Na, Nb. f_equal. f_equal.
    unfold dk in C. destruct k as [[ka kb] kc], k' as [[ka' kb'] kc']. injection C as C1 C2 C3. f_equal; [f_equal|]; lia. }
  pose proof (Rmult_le_compat_l r 1 _ ltac:(lra) Hd). lra.
Qed.
End Three.
