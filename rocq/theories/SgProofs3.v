(** Reads, the accessor and staggered sampling. *)
From Coq Require Import QArith Qround Lqa.
From Verif Require Import Prelude SgModel SgSpec SgProofs SgProofs2.
Open Scope Z_scope.

Section R.
Context {V W : Type}.
Variable w2i : W -> list Q.
Variable k : Z.
Hypothesis Hk : 0 <= k.
Variable dim : nat.
Variable n : nat.
Variable nch : Z.
Hypothesis Hnch : 0 <= nch.
Variable bg v0 : V.
Notation S := (side k).
Notation bs := (block_size k dim).
Notation inv := (inv w2i k dim n nch bg v0).

Lemma has_in (g : grid V) X : hasVoxel V k g X = true <-> In (bkey k X) (gkeys V g).
Proof.
  unfold hasVoxel. rewrite decompose_eq by assumption.
  destruct (in_dec (list_eq_dec Z.eq_dec) (bkey k X) (gkeys V g)) as [Hin|Hout].
  - destruct (find_key_in _ _ 0 (Z.le_refl 0) Hin) as (j & _ & E & _). rewrite E. unfold sentinel_v.
    destruct (Z.eqb_spec (0 + Z.of_nat j) (-1)); [lia|]. split; auto.
  - rewrite (find_key_notin _ _ 0 Hout), Z.eqb_refl. split; [discriminate|contradiction].
Qed.
Lemma value_spec h g chn X : inv h g -> (length (gkeys V g) <= n)%nat -> 0 <= chn < nch -> length X = dim ->
  (active w2i S h X -> value V k dim g chn X = Some (content v0 h chn X)) /\
  (~ active w2i S h X -> value V k dim g chn X = Some bg).
Proof.
  intros I Ln Hc LX. unfold value. rewrite decompose_eq by assumption. rewrite <- (iv_act _ _ _ _ _ _ _ _ _ I X LX). split.
  - intros Hin. destruct (find_key_in _ _ 0 (Z.le_refl 0) Hin) as (j & Hj & E & _). rewrite E, Z.add_0_l. unfold sentinel_v.
    destruct (Z.eqb_spec (Z.of_nat j) (-1)); [lia|]. unfold tile_read, tile_addr. rewrite (iv_nch _ _ _ _ _ _ _ _ _ I).
    fold (addr k dim nch chn (Z.of_nat j) (cno k X)). unfold at_.
    pose proof (addr_range k Hk dim nch chn (Z.of_nat j) _ Hc (cno_range k Hk dim X LX)) as R. pose proof (bs_pos k Hk dim).
    destruct (Z.ltb_spec (addr k dim nch chn (Z.of_nat j) (cno k X)) 0); [nia|].
    apply (iv_val _ _ _ _ _ _ _ _ _ I); auto. assert (j < length (gkeys V g))%nat by (apply nth_error_Some; congruence). lia.
  - intros Hout. rewrite (find_key_notin _ _ 0 Hout), Z.eqb_refl. rewrite (iv_bg _ _ _ _ _ _ _ _ _ I). reflexivity.
Qed.
Lemma value_default_or g chn X b : value_default V k dim g chn X b = valueOr V k dim g chn X b.
Proof. reflexivity. Qed.
Lemma default_spec h g chn X b : inv h g -> (length (gkeys V g) <= n)%nat -> 0 <= chn < nch -> length X = dim ->
  valueOr V k dim g chn X b = if hasVoxel V k g X then value V k dim g chn X else Some b.
Proof.
  intros I Ln Hc LX. unfold valueOr, valueOr_cell, hasVoxel, value. rewrite decompose_eq by assumption.
  destruct (_ =? sentinel_v); reflexivity.
Qed.

(* writes on active voxels succeed *)
Lemma assign_ok h g chn X v : inv h g -> (length (gkeys V g) <= n)%nat -> 0 <= chn < nch -> length X = dim ->
  active w2i S h X -> exists g', assign V k dim g chn X v = Some g'.
Proof.
  intros I Ln Hc LX A. rewrite <- (iv_act _ _ _ _ _ _ _ _ _ I X LX) in A.
  unfold assign. rewrite decompose_eq by assumption. destruct (find_key_in _ _ 0 (Z.le_refl 0) A) as (j & Hj & E & _).
  rewrite E, Z.add_0_l. unfold tile_write, tile_addr. rewrite (iv_nch _ _ _ _ _ _ _ _ _ I).
  fold (addr k dim nch chn (Z.of_nat j) (cno k X)).
  pose proof (addr_range k Hk dim nch chn (Z.of_nat j) _ Hc (cno_range k Hk dim X LX)) as R. pose proof (bs_pos k Hk dim).
  destruct (Z.ltb_spec (addr k dim nch chn (Z.of_nat j) (cno k X)) 0); [nia|].
  assert (j < length (gkeys V g))%nat by (apply nth_error_Some; congruence).
  destruct (upd_some (gbuf V g) (Z.to_nat (addr k dim nch chn (Z.of_nat j) (cno k X))) v) as [b' U]; [|rewrite U; eauto].
  apply Nat2Z.inj_lt. rewrite (iv_len _ _ _ _ _ _ _ _ _ I), Z2Nat.id, Nat2Z.inj_mul, Z2Nat.id by nia. nia.
Qed.
Lemma assign_undef h g chn X v : inv h g -> 0 <= chn < nch -> length X = dim ->
  ~ active w2i S h X -> assign V k dim g chn X v = None.
Proof.
  intros I Hc LX A. rewrite <- (iv_act _ _ _ _ _ _ _ _ _ I X LX) in A.
  unfold assign. rewrite decompose_eq by assumption. rewrite (find_key_notin _ _ 0 A). unfold tile_write, tile_addr.
  rewrite (iv_nch _ _ _ _ _ _ _ _ _ I). fold (addr k dim nch chn sentinel_v (cno k X)).
  pose proof (addr_range k Hk dim nch chn sentinel_v _ Hc (cno_range k Hk dim X LX)) as R. unfold sentinel_v in *.
  destruct (Z.ltb_spec (addr k dim nch chn (-1) (cno k X)) 0); [reflexivity|lia].
Qed.
(* how many blocks the insertions of a history make: the keys of the grid after the insertions alone *)
Lemma keys_mono g o g' : step V W w2i k dim (Some g) o = Some g' -> (length (gkeys V g) <= length (gkeys V g'))%nat.
Proof.
  destruct o as [x|chn X v|v]; cbn [step].
  - intros Q; injection Q as <-. unfold insert, table_insert. destruct (_ =? sentinel_v); cbn; [rewrite app_length; lia|lia].
  - unfold assign. destruct (decomposeCoord V k g X) as [b c]. unfold tile_write.
    destruct (_ <? 0); [discriminate|]. destruct (upd _ _ _); [|discriminate]. intros Q; injection Q as <-. cbn. lia.
  - intros Q; injection Q as <-. cbn. lia.
Qed.
Lemma step_keys g o g' : step V W w2i k dim (Some g) o = Some g' ->
  gkeys V g' = match o with OInsert _ _ x => gkeys V (snd (insert V W w2i k g x)) | _ => gkeys V g end.
Proof.
  destruct o as [x|chn X v|v]; cbn [step].
  - intros Q; injection Q as <-. reflexivity.
  - unfold assign. destruct (decomposeCoord V k g X) as [b c]. unfold tile_write.
    destruct (_ <? 0); [discriminate|]. destruct (upd _ _ _); [|discriminate]. intros Q; injection Q as <-. reflexivity.
  - intros Q; injection Q as <-. reflexivity.
Qed.
(* distinct keys, each in a list of nodes *)
Definition ins_nodes (ops : list (op V W)) : list coordT :=
  flat_map (fun o => match o with OInsert _ _ x => [key_of W w2i k x] | _ => [] end) ops.
Lemma keys_nodes h g : inv h g -> forall key, In key (gkeys V g) -> In key (ins_nodes h).
Proof.
  intros I key Hin. pose proof (iv_al _ _ _ _ _ _ _ _ _ I) as F. rewrite Forall_forall in F. destruct (F key Hin) as [L A].
  pose proof (proj1 (iv_act _ _ _ _ _ _ _ _ _ I key L)) as H. rewrite A in H. destruct (H Hin) as (x & N & Hx & NN & SB).
  apply in_flat_map. exists (OInsert V W x). split; [assumption|]. left. unfold key_of. rewrite block_key by assumption.
  rewrite (nearest_unique _ _ NN). rewrite <- A. apply bkey_same; assumption.
Qed.

(* the accessor *)
Definition acc_ok (g : grid V) (a : acc) : Prop :=
  length (ccoord a) = dim /\ forall X, length X = dim -> isHashed k a X = true -> In (bkey k X) (gkeys V g).
Lemma hashed_eq a X : length X = length (ccoord a) -> (isHashed k a X = true <-> bkey k X = ccoord a).
Proof.
  unfold isHashed. rewrite <- (origin_key k Hk). generalize (ccoord a). induction X as [|x X IH]; intros [|c cc] L; cbn; try discriminate; [split; reflexivity|].
  injection L as L. destruct (Z.eqb_spec (Z.land x (origin_mask k)) c) as [->|N].
  - rewrite IH by assumption. fold (origin k X). split; [intros ->; reflexivity|intros Q; injection Q; auto].
  - split; [discriminate|]. intros Q; injection Q as Q _. contradiction.
Qed.
Lemma acc0_ok g : 1 <= k < 31 -> (0 < dim)%nat -> acc_ok g (acc0 dim).
Proof.
  intros K D. split; [apply repeat_length|]. intros X LX H. apply hashed_eq in H; [|cbn; rewrite repeat_length; assumption].
  exfalso. destruct X as [|x X]; [cbn in LX; lia|]. cbn in H. destruct dim; [lia|]. cbn [repeat] in H. injection H as H _.
  assert (E : S = 2 * 2 ^ (k - 1)).
  { unfold side. replace (2 * 2 ^ (k - 1)) with (2 ^ 1 * 2 ^ (k - 1)) by lia. rewrite <- Z.pow_add_r by lia. f_equal. lia. }
  rewrite E in H. change (2 ^ 31 - 1) with 2147483647 in H. nia.
Qed.
Lemma probe_spec g a chn X : acc_ok g a -> length X = dim ->
  match value V k dim g chn X with
  | None => probeValue V k dim g a chn X = None
  | Some v => exists a', probeValue V k dim g a chn X = Some (hasVoxel V k g X, v, a') /\ acc_ok g a'
  end.
Proof.
  intros [LA A] LX. unfold probeValue, probeValueAndCache, table_query. rewrite (origin_key k Hk).
  assert (ND : forall b, In (bkey k X) (gkeys V g) -> acc_ok g (acc_insert k a X b)).
  { intros b Hin. split; [cbn; rewrite (origin_key k Hk), bkey_length; assumption|].
    intros Y LY H. apply hashed_eq in H; [|cbn; rewrite (origin_key k Hk), bkey_length; congruence].
    cbn in H. rewrite (origin_key k Hk) in H. rewrite H. assumption. }
  unfold value, hasVoxel. rewrite decompose_eq by assumption.
  destruct (in_dec (list_eq_dec Z.eq_dec) (bkey k X) (gkeys V g)) as [Hin|Hout].
  - destruct (find_key_in _ _ 0 (Z.le_refl 0) Hin) as (j & Hj & E & _). rewrite E, Z.add_0_l.
    assert (Z.of_nat j =? sentinel_v = false) as -> by (apply Z.eqb_neq; unfold sentinel_v; lia). cbn [negb].
    destruct (tile_read V k dim g chn (Z.of_nat j) (cno k X)) as [v|]; rewrite andb_false_r; cbn [andb]; destruct (isHashed k a X); eauto.
  - rewrite (find_key_notin _ _ 0 Hout), Z.eqb_refl. destruct (isHashed k a X) eqn:H; [exfalso; apply Hout, A; assumption|].
    cbn. eexists; split; [reflexivity|]. split; assumption.
Qed.
(* the same client without an accessor *)
Fixpoint run_plain (g : grid V) (es : list (ev V W)) : option (list (bool * V) * grid V) :=
  match es with
  | [] => Some ([], g)
  | EOp _ _ o :: r => match step V W w2i k dim (Some g) o with Some g' => run_plain g' r | None => None end
  | EClear _ _ :: r => run_plain (table_clear V g) r
  | EProbe _ _ chn X :: r =>
    match value V k dim g chn X with
    | None => None
    | Some v => match run_plain g r with Some (vs, g') => Some ((hasVoxel V k g X, v) :: vs, g') | None => None end
    end
  end.
Lemma keys_incl g o g' c : step V W w2i k dim (Some g) o = Some g' -> In c (gkeys V g) -> In c (gkeys V g').
Proof.
  intros E H. rewrite (step_keys _ _ _ E). destruct o; auto. unfold insert, table_insert.
  destruct (_ =? sentinel_v); cbn; [apply in_or_app; left|]; assumption.
Qed.
Lemma acc_run es : forall g a, Forall (ev_ok w2i dim nch) es -> acc_ok g a ->
  run_acc V W w2i k dim g a es = run_plain g es.
Proof.
  induction es as [|e es IH]; intros g a OK AO; [reflexivity|]. inversion OK as [|? ? O1 O2]; subst.
  destruct e as [o|chn X|]; cbn [run_acc run_plain].
  - destruct (step V W w2i k dim (Some g) o) as [g'|] eqn:E; [|reflexivity]. apply IH; [assumption|].
    destruct AO as [L A]. split; [assumption|]. intros X LX H. eapply keys_incl; eauto.
  - destruct O1 as [_ LX]. pose proof (probe_spec g a chn X AO LX) as P.
    destruct (value V k dim g chn X) as [v|]; [|rewrite P; reflexivity].
    destruct P as (a' & -> & A'). rewrite (IH g a' O2 A'). reflexivity.
  - destruct O1.
Qed.
End R.

(* staggered samples *)
Local Open Scope Q_scope.
Definition sh (s : Q) (f i : nat) (x : Z) : Q := inject_Z x + (if Nat.eqb i f then s else 0).
Fixpoint pos (s : Q) (f i : nat) (X : coordT) : list Q :=
  match X with [] => [] | x :: r => sh s f i x :: pos s f (Datatypes.S i) r end.
Lemma dot_map_zero a s i f X : (f < i)%nat -> dot a (pos s f i X) == dot a (map inject_Z X).
Proof.
  revert a i. induction X as [|x X IH]; intros [|q a] i L; cbn; try reflexivity.
  unfold sh. destruct (Nat.eqb_spec i f); [lia|]. rewrite IH by lia. ring.
Qed.
Lemma shifted_pos_gen a s f X : forall i, dot a (shifted s f X) == dot a (pos s (i + f) i X).
Proof.
  revert a f. induction X as [|x X IH]; intros [|q a] f i; destruct f; cbn; try reflexivity.
  - unfold sh. destruct (Nat.eqb_spec i (i + 0)); [|lia]. rewrite dot_map_zero by lia. reflexivity.
  - unfold sh. destruct (Nat.eqb_spec i (i + Datatypes.S f)); [lia|]. rewrite (IH a f (Datatypes.S i)).
    replace (Datatypes.S i + f)%nat with (i + Datatypes.S f)%nat by lia. ring.
Qed.
Lemma shifted_pos a s f X : dot a (shifted s f X) == dot a (pos s f 0 X).
Proof. apply (shifted_pos_gen a s f X 0). Qed.
Lemma four_dot a d f X : d <> f -> forall i,
  dot a (pos (-1#2) d i X) +
  dot a (pos (-1#2) d i (vadd X (map (fun j => if Nat.eqb j d then 1 else 0)%Z (seq i (length X))))) +
  dot a (pos (-1#2) d i (vadd X (map (fun j => if Nat.eqb j f then -1 else 0)%Z (seq i (length X))))) +
  dot a (pos (-1#2) d i (vadd X (map (fun j => if Nat.eqb j d then 1 else if Nat.eqb j f then -1 else 0)%Z (seq i (length X)))))
  == 4 * dot a (pos (-1#2) f i X).
Proof.
  intros N. revert a. induction X as [|x X IH]; intros [|q a] i; cbn; try ring.
  specialize (IH a (Datatypes.S i)). unfold vadd in IH. unfold sh.
  set (A1 := dot a (pos _ d _ X)) in *. set (B1 := dot a (pos _ d _ (map _ (combine X (map (fun j => if (j =? d)%nat then 1%Z else 0%Z) _))))) in *.
  set (C1 := dot a (pos _ d _ (map _ (combine X (map (fun j => if (j =? f)%nat then (-1)%Z else 0%Z) _))))) in *.
  set (D1 := dot a (pos _ d _ (map _ (combine X (map (fun j => if (j =? d)%nat then 1%Z else if (j =? f)%nat then (-1)%Z else 0%Z) _))))) in *.
  set (E1 := dot a (pos _ f _ X)) in *.
  destruct (Nat.eqb_spec i d), (Nat.eqb_spec i f); subst; try contradiction; cbn [Nat.eqb]; rewrite ?inject_Z_plus;
    change (inject_Z 1) with 1; change (inject_Z (-1)) with (-(1)); change (inject_Z 0) with 0.
  all: set (z := inject_Z x); clearbody A1 B1 C1 D1 E1 z; clear - IH.
  all: assert (A1 == 4 * E1 - B1 - C1 - D1) as -> by (rewrite <- IH; ring); field.
Qed.
