(** * Proofs about views of degrees of freedom *)

From Coq Require Import List Arith Bool Lia Permutation.
From Verif Require Import DvModel DvSpec.
Import ListNotations.

Lemma loc_eqb_eq a b : loc_eqb a b = true <-> a = b.
Proof.
  destruct a as [[[s c] e] d], b as [[[s' c'] e'] d']. cbn [loc_eqb].
  rewrite !andb_true_iff, !Nat.eqb_eq. split; [intros [[[-> ->] ->] ->]; reflexivity | intros H; injection H; auto].
Qed.

Lemma put_same {A} (m : mem A) l x : put m l x l = x.
Proof. unfold put. rewrite (proj2 (loc_eqb_eq l l) eq_refl). reflexivity. Qed.

Lemma put_other {A} (m : mem A) l x l' : l' <> l -> put m l x l' = m l'.
Proof.
  intros H. unfold put. destruct (loc_eqb l' l) eqn:E; [| reflexivity].
  apply loc_eqb_eq in E. contradiction.
Qed.

(** ** Degrees of freedom *)

Definition dof (v : view) (k : nat) : loc := component v (k / v_dim v) (k mod v_dim v).

Lemma divmod_unique n e d : d < n -> (e * n + d) / n = e /\ (e * n + d) mod n = d.
Proof.
  intros H. split.
  - symmetry. apply (Nat.div_unique _ n e d); lia.
  - symmetry. apply (Nat.mod_unique _ n e d); lia.
Qed.

Lemma is_dof_dof v k l : 0 < v_dim v -> (is_dof v k l <-> l = dof v k).
Proof.
  intros H. split.
  - intros (e & d & Hd & -> & ->). unfold dof. destruct (divmod_unique _ e d Hd) as [-> ->]. reflexivity.
  - intros ->. exists (k / v_dim v), (k mod v_dim v). split; [apply Nat.mod_upper_bound; lia | split; [| reflexivity]].
    rewrite (Nat.div_mod k (v_dim v)) at 1 by lia. lia.
Qed.

Lemma component_inj v e d e' d' : d < v_dim v -> d' < v_dim v ->
  component v e d = component v e' d' -> e = e' /\ d = d'.
Proof.
  intros Hd Hd' H. unfold component in H. destruct (v_chn v), (v_entry v); injection H; try lia.
  intros E. destruct (divmod_unique _ e d Hd) as [A B], (divmod_unique _ e' d' Hd') as [A' B'].
  rewrite E in A, B. split; congruence.
Qed.

Lemma dof_inj v k k' : 0 < v_dim v -> dof v k = dof v k' -> k = k'.
Proof.
  intros Hn H. apply component_inj in H; try (apply Nat.mod_upper_bound; lia).
  destruct H as [H1 H2]. rewrite (Nat.div_mod k (v_dim v)), (Nat.div_mod k' (v_dim v)) by lia. congruence.
Qed.

Lemma quot_lt k n s : 0 < n -> (k / n < s <-> k < s * n).
Proof.
  intros Hn. split; intros H.
  - pose proof (Nat.div_mod k n ltac:(lia)). pose proof (Nat.mod_upper_bound k n ltac:(lia)). nia.
  - apply Nat.div_lt_upper_bound; lia.
Qed.

Lemma dereference_dof v k : fits v ->
  dereference v k = if Nat.ltb k (numEntries v) then Some (dof v k) else None.
Proof.
  intros (Hn & Hv & Hc). unfold dereference, numEntries, dof, component, tref.
  pose proof (Nat.mod_upper_bound k (v_dim v) ltac:(lia)) as Hm.
  pose proof (quot_lt k (v_dim v) (v_size v) Hn) as Hq.
  assert (E : k / v_dim v * v_dim v + k mod v_dim v = k) by (rewrite (Nat.div_mod k (v_dim v)) at 3 by lia; lia).
  destruct (v_chn v) as [c |], (v_entry v); rewrite ?E;
    repeat (match goal with |- context [Nat.ltb ?a ?b] => destruct (Nat.ltb_spec a b) end; cbn [andb Nat.eqb]);
    try reflexivity; try lia.
Qed.

Lemma get_scalar {A} (m : mem A) v k : get m v Scalar k = load m (dereference v k).
Proof. unfold get, dereference. destruct (v_chn v), (v_entry v); reflexivity. Qed.

Lemma set_scalar {A} (m : mem A) v k x : set m v k (Sc x) = store m (dereference v k) x.
Proof. unfold set, dereference. destruct (v_chn v), (v_entry v); reflexivity. Qed.

(** ** Vectors *)

Definition row (v : view) (e : nat) : list loc := map (component v e) (seq 0 (v_dim v)).

Definition refs (v : view) (e : nat) : list (option loc) :=
  match v_chn v, v_entry v with
  | None, Scalar => map (fun d => tref v 0 (e * v_dim v + d) 0) (seq 0 (v_dim v))
  | None, Vector => whole v 0 e
  | Some c, Scalar => map (fun d => tref v (c + d) e 0) (seq 0 (v_dim v))
  | Some c, Vector => whole v c e
  end.

Lemma refs_row v e : fits v -> (e + 1) * v_dim v <= numEntries v -> refs v e = map Some (row v e).
Proof.
  intros (Hn & Hv & Hc) He. unfold refs, row, whole, numEntries, component, tref in *. rewrite map_map.
  destruct (v_chn v) as [c |], (v_entry v); apply map_ext_in; intros d Hd; apply in_seq in Hd;
    repeat (match goal with |- context [Nat.ltb ?a ?b] => destruct (Nat.ltb_spec a b) end; cbn [andb Nat.eqb]);
    try reflexivity; try nia.
Qed.

Lemma places_some ls : places (map Some ls) = Some ls.
Proof. induction ls as [| l r IH]; [reflexivity |]. cbn [map places]. rewrite IH. reflexivity. Qed.

Lemma get_vector {A} (m : mem A) v e : get m v Vector e = loads m (refs v e).
Proof. unfold get, refs. destruct (v_chn v), (v_entry v); reflexivity. Qed.

Lemma row_nodup v e : NoDup (row v e).
Proof.
  unfold row. assert (H : forall n a, a + n <= v_dim v -> NoDup (map (component v e) (seq a n))).
  { induction n as [| n IH]; intros a Ha; cbn [seq map]; constructor.
    - intros Hin. apply in_map_iff in Hin. destruct Hin as (d & E & Hd). apply in_seq in Hd.
      apply component_inj in E; lia.
    - apply IH. lia. }
  apply H. lia.
Qed.

Lemma stores_some {A} : forall (ls : list loc) (xs : list A) m, NoDup ls -> length ls = length xs ->
  exists m', stores m (map Some ls) xs = Some m' /\
    (forall i l, nth_error ls i = Some l -> nth_error xs i = Some (m' l)) /\
    (forall l, ~ In l ls -> m' l = m l).
Proof.
  induction ls as [| l r IH]; intros [| x xs] m Hn Hl; try discriminate.
  - exists m. split; [reflexivity |]. split; [intros [|] ? H; discriminate | reflexivity].
  - inversion Hn; subst. destruct (IH xs (put m l x)) as (m' & E & H1' & H2'); [assumption | now injection Hl |].
    exists m'. cbn [map stores]. split; [exact E |]. split.
    + intros [| i] l' Hi; cbn in *.
      * injection Hi as ->. rewrite H2' by assumption. rewrite put_same. reflexivity.
      * apply H1'. exact Hi.
    + intros l' Hin. rewrite H2'; [apply put_other |]; intros ?; apply Hin; [left; congruence | right; assumption].
Qed.

Definition scattered (v : view) : Prop := v_entry v = Scalar /\ v_chn v <> None /\ v_ded v <> v_dim v.

Lemma set_vector {A} (m : mem A) v e xs : length xs = v_dim v -> ~ scattered v ->
  set m v e (Ve xs) = stores m (refs v e) xs.
Proof.
  intros Hl Hs. unfold set, refs. rewrite Hl, Nat.eqb_refl. destruct (v_chn v) eqn:C, (v_entry v) eqn:E; try reflexivity.
  destruct (Nat.eqb_spec (v_ded v) (v_dim v)); [reflexivity |].
  exfalso. apply Hs. unfold scattered. rewrite C, E. repeat split; congruence.
Qed.

Lemma row_nth v e i l : nth_error (row v e) i = Some l -> i < v_dim v /\ l = component v e i.
Proof.
  intros H. assert (Hi : i < length (row v e)) by (apply nth_error_Some; congruence).
  unfold row in *. rewrite map_length, seq_length in Hi. split; [exact Hi |].
  erewrite map_nth_error in H; [injection H as <-; reflexivity |].
  rewrite (nth_error_nth' _ 0) by (rewrite seq_length; exact Hi). rewrite seq_nth by exact Hi. reflexivity.
Qed.

Lemma nth_row v e i : i < v_dim v -> nth_error (row v e) i = Some (component v e i).
Proof.
  intros Hi. unfold row. rewrite (map_nth_error _ i _ (d := i)); [reflexivity |].
  rewrite (nth_error_nth' _ 0) by (rewrite seq_length; exact Hi). rewrite seq_nth by exact Hi. reflexivity.
Qed.

Lemma in_row v e l : In l (row v e) <-> exists d, d < v_dim v /\ l = component v e d.
Proof.
  unfold row. rewrite in_map_iff. split; intros (d & A & B).
  - apply in_seq in B. exists d. split; [lia | auto].
  - exists d. split; [auto | apply in_seq; lia].
Qed.

(** ** Launches whose indices do not interfere *)

Lemma launch_independent {A} (body : nat -> mem A -> option (mem A)) (F : nat -> loc -> Prop)
  (g : nat -> mem A -> loc -> A) : forall order,
  NoDup order ->
  (forall i, In i order -> forall m, exists m', body i m = Some m' /\
     (forall l, F i l -> m' l = g i m l) /\ (forall l, ~ F i l -> m' l = m l)) ->
  (forall i j l, In i order -> In j order -> F i l -> F j l -> i = j) ->
  (forall i j m m', In i order -> In j order -> i <> j -> (forall l, ~ F j l -> m l = m' l) ->
     forall l, F i l -> g i m l = g i m' l) ->
  forall m, exists m', launch body order m = Some m' /\
    (forall i l, In i order -> F i l -> m' l = g i m l) /\
    (forall l, (forall i, In i order -> ~ F i l) -> m' l = m l).
Proof.
  induction order as [| i r IH]; intros Hn Hb Hd Hg m.
  - exists m. cbn. split; [reflexivity |]. split; [intros ? ? [] | reflexivity].
  - inversion Hn as [| ? ? Hi Hn']; subst. cbn [launch].
    destruct (Hb i (or_introl eq_refl) m) as (m1 & -> & H1 & H2).
    destruct (IH Hn') with (m := m1) as (m' & E & H3 & H4).
    { intros j Hj. apply Hb. right. exact Hj. }
    { intros j k l Hj Hk. apply Hd; right; assumption. }
    { intros j k a b Hj Hk. apply Hg; right; assumption. }
    exists m'. split; [exact E |]. split.
    + intros j l [<- | Hj] Hl.
      * rewrite H4; [apply H1; exact Hl |]. intros j Hj Hjl. apply Hi.
        rewrite (Hd i j l (or_introl eq_refl) (or_intror Hj) Hl Hjl). exact Hj.
      * rewrite (H3 j l Hj Hl). apply (Hg j i); [right; exact Hj | now left | intros -> | | exact Hl].
        -- contradiction.
        -- intros l' Hl'. apply H2. exact Hl'.
    + intros l Hl. rewrite H4; [apply H2; apply Hl; now left |]. intros j Hj. apply Hl. right. exact Hj.
Qed.

(** ** Component-wise operators *)

Definition clean (a c : view) : Prop := same_dofs a c \/ apart a c.

Lemma clean_reads {A} (m m' : mem A) a c i j : fits a -> fits c -> numEntries a = numEntries c -> clean a c ->
  i < numEntries c -> j < numEntries c -> i <> j ->
  (forall l, l <> dof c j -> m l = m' l) -> m (dof a i) = m' (dof a i).
Proof.
  intros Fa Fc En Hc Hi Hj Hij H. apply H. intros E. pose proof (proj1 Fa). pose proof (proj1 Fc). destruct Hc as [Hs | Hs].
  - assert (Ha : is_dof c i (dof a i)) by (apply Hs; [exact Hi | apply is_dof_dof; auto]).
    apply is_dof_dof in Ha; [| assumption]. rewrite Ha in E. apply dof_inj in E; auto.
  - apply (Hs (dof a i)). split.
    + exists i. split; [lia | apply is_dof_dof; auto].
    + rewrite E. exists j. split; [exact Hj | apply is_dof_dof; auto].
Qed.

Lemma scalar_launch {A} (body : nat -> mem A -> option (mem A)) (f : nat -> mem A -> A) c order n m :
  fits c -> n <= numEntries c -> Permutation order (seq 0 n) ->
  (forall i m, i < n -> body i m = set m c i (Sc (f i m))) ->
  (forall i j m m', i < n -> j < n -> i <> j -> (forall l, l <> dof c j -> m l = m' l) -> f i m = f i m') ->
  exists m', launch body order m = Some m' /\
    (forall i, i < n -> m' (dof c i) = f i m) /\
    (forall l, (forall i, i < n -> l <> dof c i) -> m' l = m l).
Proof.
  intros Fc Hle Hp Hb Hf.
  assert (Hin : forall i, In i order -> i < n).
  { intros i Hi. apply (Permutation_in _ Hp) in Hi. apply in_seq in Hi. lia. }
  destruct (launch_independent body (fun i l => l = dof c i) (fun i m _ => f i m) order) with (m := m) as (m' & E & H1 & H2).
  - apply (Permutation_NoDup (Permutation_sym Hp)). apply seq_NoDup.
  - intros i Hi m0. apply Hin in Hi. rewrite Hb by exact Hi. rewrite set_scalar, dereference_dof by exact Fc.
    destruct (Nat.ltb_spec i (numEntries c)); [| lia]. eexists. split; [reflexivity |]. split.
    + intros l ->. apply put_same.
    + intros l Hl. apply put_other. exact Hl.
  - intros i j l _ _ -> E. apply dof_inj in E; [exact E | apply (proj1 Fc)].
  - intros i j m1 m2 Hi Hj Hij H l _. apply (Hf i j); auto.
  - exists m'. split; [exact E |]. split.
    + intros i Hi. apply H1; [| reflexivity]. apply (Permutation_in _ (Permutation_sym Hp)). apply in_seq. lia.
    + intros l Hl. apply H2. intros i Hi. apply Hl. auto.
Qed.

Lemma read_dof {A} (m : mem A) v k : fits v -> k < numEntries v -> get m v Scalar k = Some (Sc (m (dof v k))).
Proof.
  intros Fv Hk. rewrite get_scalar, dereference_dof by exact Fv.
  destruct (Nat.ltb_spec k (numEntries v)); [reflexivity | lia].
Qed.

Lemma compwise_done {A} (op : A -> A -> A) va vb vc order m :
  fits va -> fits vb -> fits vc -> numEntries va = numEntries vc -> numEntries vb = numEntries vc ->
  clean va vc -> clean vb vc -> Permutation order (seq 0 (numEntries va)) ->
  exists m', compwise op va vb vc order m = Done m' /\
    (forall k, k < numEntries vc -> m' (dof vc k) = op (m (dof va k)) (m (dof vb k))) /\
    (forall l, (forall k, k < numEntries vc -> l <> dof vc k) -> m' l = m l).
Proof.
  intros Fa Fb Fc Ea Eb Ca Cb Hp. unfold compwise. rewrite Eb, Ea, Nat.eqb_refl. cbn [andb].
  rewrite Ea in Hp.
  destruct (scalar_launch (compute op va vb vc) (fun i m => op (m (dof va i)) (m (dof vb i))) vc order _ m Fc (le_n _) Hp)
    as (m' & E & H1 & H2).
  - intros i m0 Hi. unfold compute. rewrite !read_dof by (auto; lia). reflexivity.
  - intros i j m1 m2 Hi Hj Hij H.
    rewrite (clean_reads m1 m2 va vc i j), (clean_reads m1 m2 vb vc i j); auto.
  - exists m'. rewrite E. split; [reflexivity |]. split; assumption.
Qed.

Lemma compwise1_done {A} (op : A -> A) va vc order m :
  fits va -> fits vc -> numEntries va = numEntries vc -> clean va vc -> Permutation order (seq 0 (numEntries va)) ->
  exists m', compwise1 op va vc order m = Done m' /\
    (forall k, k < numEntries vc -> m' (dof vc k) = op (m (dof va k))) /\
    (forall l, (forall k, k < numEntries vc -> l <> dof vc k) -> m' l = m l).
Proof.
  intros Fa Fc Ea Ca Hp. unfold compwise1. rewrite Ea, Nat.eqb_refl. rewrite Ea in Hp.
  destruct (scalar_launch (compute1 op va vc) (fun i m => op (m (dof va i))) vc order _ m Fc (le_n _) Hp)
    as (m' & E & H1 & H2).
  - intros i m0 Hi. unfold compute1. rewrite !read_dof by (auto; lia). reflexivity.
  - intros i j m1 m2 Hi Hj Hij H. rewrite (clean_reads m1 m2 va vc i j); auto.
  - exists m'. rewrite E. split; [reflexivity |]. split; assumption.
Qed.

Lemma fill_done {A} (x : A) v order m : fits v -> Permutation order (seq 0 (numEntries v)) ->
  exists m', launch (fill v x) order m = Some m' /\
    (forall k, k < numEntries v -> m' (dof v k) = x) /\
    (forall l, (forall k, k < numEntries v -> l <> dof v k) -> m' l = m l).
Proof.
  intros Fc Hp. apply (scalar_launch (fill v x) (fun _ _ => x) v order _ m Fc (le_n _) Hp); reflexivity.
Qed.

(** ** The identity system *)

Lemma identity_scalars {A} va vb order (m : mem A) :
  fits va -> fits vb -> numEntries va = numEntries vb -> v_entry vb = Scalar -> clean va vb ->
  Permutation order (seq 0 (v_size vb)) ->
  exists m', identity va vb order m = Done m' /\
    (forall k, k < v_size vb -> m' (dof vb k) = m (dof va k)) /\
    (forall l, (forall k, k < v_size vb -> l <> dof vb k) -> m' l = m l).
Proof.
  intros Fa Fb En Es Hc Hp.
  assert (Hle : v_size vb <= numEntries vb).
  { unfold numEntries. rewrite Es. destruct (v_chn vb); [| lia]. pose proof (proj1 Fb). nia. }
  destruct (scalar_launch (assign va vb) (fun i m => m (dof va i)) vb order _ m Fb Hle Hp) as (m' & E & H1 & H2).
  - intros i m0 Hi. unfold assign. rewrite Es, read_dof by (auto; lia). reflexivity.
  - intros i j m1 m2 Hi Hj Hij H. apply (clean_reads m1 m2 va vb i j); auto; lia.
  - exists m'. unfold identity. rewrite E. split; [reflexivity |]. split; assumption.
Qed.

Lemma dof_component v e d : d < v_dim v -> dof v (e * v_dim v + d) = component v e d.
Proof. intros Hd. unfold dof. destruct (divmod_unique _ e d Hd) as [-> ->]. reflexivity. Qed.

Lemma read_row {A} (m : mem A) v e : fits v -> (e + 1) * v_dim v <= numEntries v ->
  get m v Vector e = Some (Ve (map m (row v e))).
Proof. intros Fv He. rewrite get_vector, refs_row by assumption. unfold loads. rewrite places_some. reflexivity. Qed.

Lemma find_component v e d : d < v_dim v ->
  find (fun d' => loc_eqb (component v e d) (component v e d')) (seq 0 (v_dim v)) = Some d.
Proof.
  intros Hd. destruct (find _ _) as [d' |] eqn:Ef.
  - apply find_some in Ef. destruct Ef as [Hd' Ef]. apply in_seq in Hd'. apply loc_eqb_eq in Ef.
    apply component_inj in Ef; [| assumption | lia]. destruct Ef as [_ <-]. reflexivity.
  - pose proof (find_none _ _ Ef d ltac:(apply in_seq; lia)) as X. cbv beta in X.
    rewrite (proj2 (loc_eqb_eq _ _) eq_refl) in X. discriminate.
Qed.

Lemma identity_vectors {A} va vb order (m : mem A) :
  fits va -> fits vb -> numEntries va = numEntries vb -> v_dim va = v_dim vb -> v_entry vb = Vector -> clean va vb ->
  Permutation order (seq 0 (v_size vb)) ->
  exists m', identity va vb order m = Done m' /\
    (forall k, k < numEntries vb -> m' (dof vb k) = m (dof va k)) /\
    (forall l, (forall k, k < numEntries vb -> l <> dof vb k) -> m' l = m l).
Proof.
  intros Fa Fb En Ed Ev Hc Hp. pose proof (proj1 Fb) as Hd.
  assert (Hs : numEntries vb = v_size vb * v_dim vb) by (unfold numEntries; rewrite Ev; destruct (v_chn vb); reflexivity).
  assert (Hin : forall i, In i order -> i < v_size vb).
  { intros i Hi. apply (Permutation_in _ Hp) in Hi. apply in_seq in Hi. lia. }
  assert (Hlt : forall e d, e < v_size vb -> d < v_dim vb -> e * v_dim vb + d < numEntries vb) by (intros; rewrite Hs; nia).
  destruct (launch_independent (A := A) (assign va vb) (fun i l => In l (row vb i))
    (fun i (m : mem A) l => m (dof va (i * v_dim vb + match find (fun d => loc_eqb l (component vb i d)) (seq 0 (v_dim vb)) with Some d => d | None => 0 end))) order)
    with (m := m) as (m' & E & H1 & H2).
  - apply (Permutation_NoDup (Permutation_sym Hp)). apply seq_NoDup.
  - intros i Hi m0. apply Hin in Hi. unfold assign. rewrite Ev, read_row; [| exact Fa | rewrite En, Ed, Hs; nia].
    assert (Hl : length (map m0 (row va i)) = v_dim vb) by (unfold row; rewrite !map_length, seq_length; exact Ed).
    rewrite set_vector; [| exact Hl | intros [Hx _]; congruence].
    rewrite refs_row; [| exact Fb | rewrite Hs; nia].
    destruct (stores_some (row vb i) (map m0 (row va i)) m0 (row_nodup vb i)) as (m' & E & A1 & A2).
    { rewrite Hl. unfold row. rewrite map_length, seq_length. reflexivity. }
    exists m'. split; [exact E |]. split; [| exact A2].
    intros l Hl'. apply in_row in Hl'. destruct Hl' as (d & Hdd & ->).
    rewrite find_component by exact Hdd.
    specialize (A1 d _ (nth_row vb i d Hdd)). rewrite (map_nth_error m0 d (row va i) (nth_row va i d ltac:(lia))) in A1.
    injection A1 as A1. rewrite <- A1. rewrite <- Ed, dof_component by lia. reflexivity.
  - intros i j l _ _ Hi Hj. apply in_row in Hi, Hj. destruct Hi as (d & B1 & ->), Hj as (d' & B2 & B3).
    apply component_inj in B3; [apply B3 | assumption | assumption].
  - intros i j m1 m2 Hi Hj Hij H l Hl. apply Hin in Hi, Hj. apply in_row in Hl. destruct Hl as (d0 & Hd0 & ->).
    rewrite find_component by exact Hd0. apply H. intros Hin'. apply in_row in Hin'. destruct Hin' as (d' & Hd2 & E).
    rewrite <- (dof_component vb j d' Hd2) in E.
    pose proof (Hlt i d0 Hi Hd0) as L1. pose proof (Hlt j d' Hj Hd2) as L2.
    destruct Hc as [Hc | Hc].
    + assert (Ha : is_dof vb (i * v_dim vb + d0) (dof va (i * v_dim vb + d0))).
      { apply Hc; [exact L1 | apply is_dof_dof; [apply (proj1 Fa) | reflexivity]]. }
      apply is_dof_dof in Ha; [| exact Hd]. rewrite Ha in E. apply dof_inj in E; [| exact Hd].
      destruct (divmod_unique (v_dim vb) i d0 Hd0) as [Q1 _], (divmod_unique (v_dim vb) j d' Hd2) as [Q2 _].
      rewrite E in Q1. congruence.
    + apply (Hc (dof va (i * v_dim vb + d0))). split.
      * exists (i * v_dim vb + d0). split; [lia | apply is_dof_dof; [apply (proj1 Fa) | reflexivity]].
      * rewrite E. eexists. split; [exact L2 | apply is_dof_dof; [exact Hd | reflexivity]].
  - exists m'. unfold identity. rewrite E. split; [reflexivity |].
    assert (Hord : forall k, k < numEntries vb -> In (k / v_dim vb) order).
    { intros k Hk. apply (Permutation_in _ (Permutation_sym Hp)). apply in_seq. split; [lia |]. cbn.
      apply quot_lt; [exact Hd | lia]. }
    split.
    + intros k Hk. pose proof (Nat.mod_upper_bound k (v_dim vb) ltac:(lia)) as Hm.
      rewrite (H1 (k / v_dim vb) (dof vb k) (Hord k Hk)) by (apply in_row; exists (k mod v_dim vb); split; [exact Hm | reflexivity]).
      change (dof vb k) with (component vb (k / v_dim vb) (k mod v_dim vb)). rewrite find_component by exact Hm.
      f_equal. f_equal. rewrite (Nat.div_mod k (v_dim vb)) at 3 by lia. lia.
    + intros l Hl. apply H2. intros i Hi Hr. apply in_row in Hr. destruct Hr as (d & Hdd & ->).
      apply (Hl (i * v_dim vb + d)); [apply Hlt; auto | symmetry; apply dof_component; exact Hdd].
Qed.

(** ** Copies over all degrees of freedom *)

Lemma copy_scalars {A} va vb order (m : mem A) :
  fits va -> fits vb -> numEntries va = numEntries vb -> v_entry vb = Scalar -> clean va vb ->
  Permutation order (seq 0 (numEntries vb)) ->
  exists m', copy_dofs va vb order m = Done m' /\
    (forall k, k < numEntries vb -> m' (dof vb k) = m (dof va k)) /\
    (forall l, (forall k, k < numEntries vb -> l <> dof vb k) -> m' l = m l).
Proof.
  intros Fa Fb En Es Hc Hp.
  destruct (scalar_launch (assign va vb) (fun i m => m (dof va i)) vb order _ m Fb (le_n _) Hp) as (m' & E & H1 & H2).
  - intros i m0 Hi. unfold assign. rewrite Es, read_dof by (auto; lia). reflexivity.
  - intros i j m1 m2 Hi Hj Hij H. apply (clean_reads m1 m2 va vb i j); auto; lia.
  - exists m'. unfold copy_dofs. rewrite E. split; [reflexivity |]. split; assumption.
Qed.

Lemma launch_undefined {A} (body : nat -> mem A -> option (mem A)) i : (forall m, body i m = None) ->
  forall order m, In i order -> launch body order m = None.
Proof.
  intros H. induction order as [| j r IH]; intros m Hin; [destruct Hin |]. destruct Hin as [<- | Hi]; cbn [launch].
  - rewrite H. reflexivity.
  - destruct (body j m); [apply IH; exact Hi | reflexivity].
Qed.

Lemma vector_write_outside {A} (m : mem A) v i xs : 0 < v_dim v -> v_entry v = Vector -> v_size v <= i ->
  set m v i (Ve xs) = None.
Proof.
  intros Hd Ev Hi. unfold set. rewrite Ev.
  assert (Hw : forall c, length xs = v_dim v -> stores m (whole v c i) xs = None).
  { intros c Hl. unfold whole. destruct (v_dim v) as [| n] eqn:En; [lia |]. destruct xs as [| x xs]; [discriminate |].
    cbn [seq map stores]. unfold tref. destruct (Nat.ltb_spec i (v_size v)); [lia |].
    rewrite andb_false_r. reflexivity. }
  destruct (v_chn v); destruct (Nat.eqb_spec (length xs) (v_dim v)); auto.
Qed.
