(** C76: SparseGrid behaves as a map from integer coordinates to values. *)
From Coq Require Import QArith Qround.
From Verif Require Import Prelude SgModel SgSpec SgProofs SgProofs2 SgProofs3.
Open Scope Z_scope.

(** Local offsets and local coordinates correspond one to one. *)
Theorem C76_local_codec : forall k dim, 0 <= k ->
  (forall off, 0 <= off < side k ^ Z.of_nat dim ->
     local_coord (side k) dim (local_offset_to_coord k dim off) /\
     local_coord_to_offset k (local_offset_to_coord k dim off) = off) /\
  (forall c, local_coord (side k) dim c ->
     0 <= local_coord_to_offset k c < side k ^ Z.of_nat dim /\
     local_offset_to_coord k dim (local_coord_to_offset k c) = c).
Proof. intros k dim Hk. split; [apply offset_coord; assumption|apply coord_offset; assumption]. Qed.
Print Assumptions C76_local_codec.
Example C76_local_codec_ex : local_offset_to_coord 2 3 27 = [1; 2; 3] /\ local_coord_to_offset 2 [1; 2; 3] = 27.
Proof. split; reflexivity. Qed.

Section P.
Context {V W : Type}.
Variable w2i : W -> list Q.
Variables (k : Z) (dim n : nat) (nch : Z) (bg v0 : V).
Hypothesis Hk : 0 <= k.
Hypothesis Hnch : 0 <= nch.
Notation fresh := (fresh V k dim n nch bg v0).
Notation run := (run V W w2i k dim).
Notation S := (side k).

(** Reading any voxel after any sequence of insertions, assignments and resets
    gives what was last stored there if its block has been activated, and the
    background value otherwise. *)
Theorem C76_value : forall ops g, Forall (op_ok w2i dim nch) ops -> run fresh ops = Some g ->
  (length (gkeys V g) <= n)%nat ->
  forall chn X, 0 <= chn < nch -> length X = dim ->
  (hasVoxel V k g X = true <-> active w2i S ops X) /\
  (active w2i S ops X -> value V k dim g chn X = Some (content v0 (rev ops) chn X)) /\
  (~ active w2i S ops X -> value V k dim g chn X = Some bg) /\
  (forall b, valueOr V k dim g chn X b = (if hasVoxel V k g X then value V k dim g chn X else Some b)
             /\ value_default V k dim g chn X b = valueOr V k dim g chn X b).
Proof.
  intros ops g OK R Ln chn X Hc LX.
  pose proof (inv_run w2i k Hk dim n nch Hnch bg v0 ops [] _ g (inv_fresh w2i k dim n nch bg v0) OK R) as I.
  rewrite app_nil_r in I.
  assert (AC : active w2i S (rev ops) X <-> active w2i S ops X).
  { unfold active. split; intros (x & N & H & T); exists x, N; (split; [|exact T]); [apply in_rev; exact H|apply -> in_rev; exact H]. }
  rewrite <- AC. split; [|split; [|split]].
  - rewrite has_in by assumption. apply (iv_act _ _ _ _ _ _ _ _ _ I). assumption.
  - eapply value_spec; eassumption.
  - eapply value_spec; eassumption.
  - intros b. split; [eapply default_spec; eassumption|reflexivity].
Qed.

(** Nothing undefined happens as long as every written voxel is active and the
    activated blocks fit the storage. *)
Theorem C76_defined : forall ops, Forall (op_ok w2i dim nch) ops -> writes_active w2i S [] ops ->
  blocks_at_most w2i S n ops ->
  exists g, run fresh ops = Some g /\ (length (gkeys V g) <= n)%nat.
Proof.
  intros ops OK WA (B & LB & HB).
  assert (BND : forall h g, inv w2i k dim n nch bg v0 h g -> (forall x, In (OInsert V W x) h -> In (OInsert V W x) ops) ->
                (length (gkeys V g) <= n)%nat).
  { intros h g I Sub. transitivity (length (map (bkey k) B)); [|rewrite map_length; assumption].
    apply NoDup_incl_length; [apply (iv_nd _ _ _ _ _ _ _ _ _ I)|]. intros key Hin.
    pose proof (keys_nodes w2i k Hk dim n nch bg v0 h g I key Hin) as H. apply in_flat_map in H as (o & Ho & E).
    destruct o as [x|c X v|v]; [|destruct E|destruct E]. destruct E as [E|[]]. subst key.
    destruct (HB x _ (Sub x Ho) (nearest_floor (w2i x))) as (Y & HY & SB). apply in_map_iff. exists Y. split; [|assumption].
    unfold key_of. rewrite block_key by assumption. symmetry. apply bkey_same; assumption. }
  assert (G : forall r h g, (forall x, In (OInsert V W x) h -> In (OInsert V W x) ops) -> (forall x, In (OInsert V W x) r -> In (OInsert V W x) ops) ->
     inv w2i k dim n nch bg v0 h g -> Forall (op_ok w2i dim nch) r -> writes_active w2i S h r ->
     exists g', run g r = Some g' /\ (length (gkeys V g') <= n)%nat).
  { induction r as [|o r IH]; intros h g Sh Sr I O WA'.
    - exists g. split; [reflexivity|]. eapply BND; eassumption.
    - inversion O as [|? ? O1 O2]; subst. destruct WA' as [W1 W2].
      assert (exists g1, step V W w2i k dim (Some g) o = Some g1) as [g1 E].
      { destruct o as [x|c X v|v]; cbn [step]; eauto. destruct O1. eapply assign_ok; eauto. }
      unfold SgModel.run. cbn [fold_left]. rewrite E. apply (IH (o :: h) g1); auto.
      + intros x [->|H]; [apply Sr; left; reflexivity|auto].
      + intros x H. apply Sr. right. exact H.
      + eapply inv_step; eassumption. }
  apply (G ops [] fresh); auto; [intros x []|apply inv_fresh; assumption].
Qed.

(** Writing through operator() at an inactive voxel is undefined: it only prints
    a message and uses block -1. *)
Theorem C76_inactive_write : forall ops g, Forall (op_ok w2i dim nch) ops -> run fresh ops = Some g ->
  forall chn X v, 0 <= chn < nch -> length X = dim -> ~ active w2i S ops X -> assign V k dim g chn X v = None.
Proof.
  intros ops g OK R chn X v Hc LX NA.
  pose proof (inv_run w2i k Hk dim n nch Hnch bg v0 ops [] _ g (inv_fresh w2i k dim n nch bg v0) OK R) as I.
  rewrite app_nil_r in I. eapply assign_undef; try eassumption.
  intros (x & N & H & T). apply NA. exists x, N. split; [apply in_rev; exact H|exact T].
Qed.

(** Active voxels and pairs (block number, cell number) correspond one to one. *)
Theorem C76_voxels : forall ops g, Forall (op_ok w2i dim nch) ops -> run fresh ops = Some g ->
  (forall X, length X = dim -> hasVoxel V k g X = true ->
     let '(bno, cno) := decomposeCoord V k g X in
     0 <= bno < Z.of_nat (length (gkeys V g)) /\ 0 <= cno < S ^ Z.of_nat dim /\
     iCoord V k dim g bno cno = Some X /\ iCoord_cell V k dim g (bno * S ^ Z.of_nat dim + cno) = Some X) /\
  (forall bno cno, 0 <= bno < Z.of_nat (length (gkeys V g)) -> 0 <= cno < S ^ Z.of_nat dim ->
     exists X, iCoord V k dim g bno cno = Some X /\ length X = dim /\ active w2i S ops X /\
               decomposeCoord V k g X = (bno, cno)).
Proof.
  intros ops g OK R.
  pose proof (inv_run w2i k Hk dim n nch Hnch bg v0 ops [] _ g (inv_fresh w2i k dim n nch bg v0) OK R) as I.
  rewrite app_nil_r in I. pose proof (bs_pos k Hk dim) as BP. unfold block_size in BP. split.
  - intros X LX H. apply (has_in k Hk) in H. rewrite decompose_eq by assumption.
    destruct (find_key_in _ _ 0 (Z.le_refl 0) H) as (j & Hj & E & _). rewrite E, Z.add_0_l.
    assert (j < length (gkeys V g))%nat by (apply nth_error_Some; congruence).
    pose proof (cno_range k Hk dim X LX) as CR. unfold block_size in CR.
    assert (IC : iCoord V k dim g (Z.of_nat j) (cno k X) = Some X).
    { unfold iCoord, at_. destruct (Z.ltb_spec (Z.of_nat j) 0); [lia|]. rewrite Nat2Z.id, Hj.
      unfold cno. destruct (coord_offset k Hk dim (cellid k X)) as [_ ->]; [rewrite <- LX; apply cellid_local; assumption|].
      rewrite add_back by assumption. reflexivity. }
    repeat split; try lia; [exact IC|]. unfold iCoord_cell, block_size. rewrite Z.quot_div_nonneg, Z.rem_mod_nonneg by nia.
    rewrite Z.div_add_l by lia. rewrite (Z.div_small (cno k X)) by lia. rewrite Z.add_0_r.
    rewrite (Z.add_comm (_ * _)), Z_mod_plus_full, Z.mod_small by lia. exact IC.
  - intros bno cno Hb Hc. unfold iCoord, at_. destruct (Z.ltb_spec bno 0); [lia|].
    destruct (nth_error (gkeys V g) (Z.to_nat bno)) as [key|] eqn:E.
    2:{ apply nth_error_None in E. lia. }
    pose proof (iv_al _ _ _ _ _ _ _ _ _ I) as F. rewrite Forall_forall in F.
    destruct (F key (nth_error_In _ _ E)) as [L A].
    destruct (offset_coord k Hk dim cno Hc) as [LC OC].
    destruct (split_sum k Hk key _ dim A L LC) as (B1 & B2 & B3).
    eexists; split; [reflexivity|]. split; [assumption|]. split.
    + pose proof (iv_act _ _ _ _ _ _ _ _ _ I _ B3) as AC. rewrite B1 in AC.
      destruct (proj1 AC (nth_error_In _ _ E)) as (x & N & Hx & T). exists x, N. split; [apply in_rev; exact Hx|exact T].
    + rewrite decompose_eq by assumption. unfold SgProofs2.cno. rewrite B1, B2, OC. f_equal.
      rewrite (find_key_nth _ _ _ (iv_nd _ _ _ _ _ _ _ _ _ I) E). lia.
Qed.

(** insert(x) activates exactly the block of the node nearest to x; it reports a
    new block number exactly if that block was inactive; it renumbers and
    changes nothing else; query(x) then finds the block. *)
Theorem C76_insert : forall ops g, Forall (op_ok w2i dim nch) ops -> run fresh ops = Some g ->
  forall x N, length (w2i x) = dim -> nearest_node (w2i x) N ->
  let '(r, g') := insert V W w2i k g x in
  (active w2i S ops N -> r = -1 /\ g' = g) /\
  (~ active w2i S ops N -> r = Z.of_nat (length (gkeys V g)) /\ length (gkeys V g') = Datatypes.S (length (gkeys V g))) /\
  gbuf V g' = gbuf V g /\
  (forall X, active w2i S ops X -> length X = dim -> decomposeCoord V k g' X = decomposeCoord V k g X) /\
  (forall Y, length Y = dim -> same_block S N Y -> query V W w2i k g' x = fst (decomposeCoord V k g' Y) /\ 0 <= query V W w2i k g' x).
Proof.
  intros ops g OK R x N L NN.
  pose proof (inv_run w2i k Hk dim n nch Hnch bg v0 ops [] _ g (inv_fresh w2i k dim n nch bg v0) OK R) as I.
  rewrite app_nil_r in I. pose proof (inv_insert w2i k Hk dim n nch Hnch bg v0 _ g x I L) as I'.
  assert (AC : forall X, active w2i S (rev ops) X <-> active w2i S ops X).
  { intros X. unfold active. split; intros (y & M & H & T); exists y, M; (split; [|exact T]); [apply in_rev; exact H|apply -> in_rev; exact H]. }
  assert (KN : key_of W w2i k x = bkey k N).
  { unfold key_of. rewrite block_key by assumption. rewrite (nearest_unique _ _ NN). reflexivity. }
  assert (LN : length N = dim) by (rewrite <- L; clear - NN; induction NN; cbn; lia).
  assert (IA : In (bkey k N) (gkeys V g) <-> active w2i S ops N) by (rewrite <- AC; apply (iv_act _ _ _ _ _ _ _ _ _ I _ LN)).
  assert (QQ : forall Y, same_block S N Y -> bkey k Y = bkey k N) by (intros Y SB; symmetry; apply bkey_same; assumption).
  unfold insert, table_insert, table_query in *. rewrite KN in *.
  destruct (in_dec (list_eq_dec Z.eq_dec) (bkey k N) (gkeys V g)) as [Hin|Hout].
  - destruct (find_key_in _ _ 0 (Z.le_refl 0) Hin) as (j & Hj & E & _). rewrite E in *. rewrite Z.add_0_l in *.
    assert (Z.of_nat j =? sentinel_v = false) as F by (apply Z.eqb_neq; unfold sentinel_v; lia). rewrite F in *. cbn [snd] in *.
    split; [auto|]. split; [intros NA; exfalso; apply NA, IA; assumption|]. split; [reflexivity|]. split; [reflexivity|].
    intros Y LY SB. rewrite decompose_eq by assumption. rewrite (QQ Y SB). unfold query, table_query. rewrite KN. cbn [fst]. rewrite E. split; [reflexivity|lia].
  - rewrite (find_key_notin _ _ 0 Hout), Z.eqb_refl in *. cbn [snd] in *.
    split; [intros A; exfalso; apply Hout, IA; assumption|].
    split; [intros _; split; [reflexivity|cbn; rewrite app_length; cbn; lia]|]. split; [reflexivity|]. split.
    + intros X A LX. rewrite !decompose_eq by assumption. cbn. rewrite find_key_app; [reflexivity|].
      apply (iv_act _ _ _ _ _ _ _ _ _ I _ LX), AC, A.
    + intros Y LY SB. rewrite decompose_eq by assumption. rewrite (QQ Y SB). unfold query, table_query. rewrite KN. cbn [fst]. split; [reflexivity|].
      destruct (find_key_in (gkeys V g ++ [bkey k N]) (bkey k N) 0 (Z.le_refl 0)) as (j & _ & E & _); [apply in_or_app; right; left; reflexivity|].
      cbn. rewrite E. lia.
Qed.

(** A caching accessor, kept while the grid is extended and written, always
    answers as a direct read (side length at least 2). *)
Theorem C76_accessor : (0 < dim)%nat -> 1 <= k < 31 -> forall es g, Forall (ev_ok w2i dim nch) es ->
  run_acc V W w2i k dim g (acc0 dim) es =
  direct (fun g o => step V W w2i k dim (Some g) o) (value V k dim) (hasVoxel V k) g es.
Proof.
  intros D K es g OK. rewrite (acc_run w2i k Hk dim nch es g (acc0 dim) OK (acc0_ok k Hk dim g K D)).
  clear D K. revert g. induction OK as [|e es O1 OK IH]; intros g; [reflexivity|]. destruct e as [o|c X|]; cbn [run_plain direct].
  - destruct (step V W w2i k dim (Some g) o); [apply IH|reflexivity].
  - destruct (value V k dim g c X); [|reflexivity]. rewrite IH. reflexivity.
  - destruct O1.
Qed.

(** Face f + dim of a cell is face f of the next cell along f. *)
Theorem C76_staggered_neighbour : forall (g : grid V) chn X Y f b, length X = dim -> 0 <= f < Z.of_nat dim ->
  length Y = dim -> (forall i, nth i Y 0 = nth i X 0 + (if Nat.eqb i (Z.to_nat f) then 1 else 0)) ->
  valueOr_staggered V k dim g chn X f b = valueOr V k dim g chn X b /\
  valueOr_staggered V k dim g chn X (f + Z.of_nat dim) b = valueOr V k dim g chn Y b.
Proof.
  intros g chn X Y f b LX Hf LY E. unfold valueOr_staggered. rewrite !Z.rem_mod_nonneg, !Z.mod_small by lia.
  destruct (Z.leb_spec (Z.of_nat dim) f); [lia|]. destruct (Z.leb_spec (Z.of_nat dim) (f + Z.of_nat dim)); [|lia].
  replace (f + Z.of_nat dim - Z.of_nat dim) with f by lia. split; [reflexivity|]. f_equal.
  clear - E LX LY Hf. assert (F : (Z.to_nat f < length X)%nat) by lia. rewrite <- LX in LY. clear LX Hf.
  revert X Y F E LY. generalize (Z.to_nat f) as i. induction i as [|i IH]; intros [|x X] [|y Y] F E LY; cbn in *; try lia.
  - pose proof (E O) as E0. cbn in E0. rewrite E0. f_equal. apply (nth_ext _ _ 0 0); [lia|]. intros j Hj.
    pose proof (E (Datatypes.S j)) as Ej. cbn in Ej. lia.
  - pose proof (E O) as E0. cbn in E0. f_equal; [lia|]. apply IH; try lia. intros j. specialize (E (Datatypes.S j)). cbn in E. exact E.
Qed.
End P.
Print Assumptions C76_value.
Print Assumptions C76_defined.
Print Assumptions C76_inactive_write.
Print Assumptions C76_voxels.
Print Assumptions C76_insert.
Print Assumptions C76_accessor.
Print Assumptions C76_staggered_neighbour.

(** Sampling a staggered affine field at a face gives the field's exact value
    there: component d of the field is stored at the d-faces of the cells. *)
Theorem C76_staggered_sample : forall k dim (g : grid Q) prop d X f a0 a, 0 <= k ->
  length X = dim -> (d < dim)%nat -> (f < 2 * dim)%nat ->
  (forall Y, length Y = dim -> Forall2 (fun x y => Z.abs (x - y) <= 2) X Y ->
     exists q, valueOr Q k dim g (prop + Z.of_nat d) Y (gbg Q g) = Some q /\ (q == affine a0 a (shifted (-1#2) d Y))%Q) ->
  exists r, iStaggeredCellSample k dim g prop d X f = Some r /\
    (r == affine a0 a (if Nat.ltb f dim then shifted (-1#2) f X else shifted (1#2) (f - dim) X))%Q.
Proof.
  intros k dim g prop d X f a0 a Hk LX Hd Hf H.
  (* reduce to faces within the cell *)
  assert (Core : forall Z0 f', length Z0 = dim -> (f' < dim)%nat ->
     Forall2 (fun x y => Z.abs (x - y) <= 1) X Z0 ->
     exists r, (let '(b, c) := decomposeCoord Q k g Z0 in iStaggeredCellSample_at k dim g prop d Z0 b c f') = Some r /\
       (r == affine a0 a (shifted (-1#2) f' Z0))%Q).
  { intros Z0 f' LZ Hf' NX.
    assert (Near : forall h, (forall i, Z.abs (h i) <= 1) ->
       exists q, valueOr Q k dim g (prop + Z.of_nat d) (vadd Z0 (unit_off dim h)) (gbg Q g) = Some q /\
                 (q == affine a0 a (shifted (-1#2) d (vadd Z0 (unit_off dim h))))%Q).
    { intros h Hh. apply H.
      - unfold vadd, unit_off. rewrite map_length, combine_length, map_length, seq_length. lia.
      - clear - NX LZ Hh. unfold vadd, unit_off. rewrite <- LZ. generalize O. clear LZ. induction NX as [|x z X Z0 A _ IH]; intros s; cbn; constructor.
        + specialize (Hh s). lia.
        + apply IH. }
    destruct (H Z0) as (q0 & V0 & E0); [assumption| |].
    { clear - NX. induction NX; constructor; auto; lia. }
    unfold iStaggeredCellSample_at. unfold valueOr in V0. rewrite decompose_eq in * by assumption.
    destruct (Nat.eqb_spec d f') as [<-|NE]; [eauto|]. cbv zeta. rewrite V0.
    destruct (Near (fun i => if Nat.eqb i d then 1 else 0)) as (q1 & -> & E1); [intros i; destruct (Nat.eqb i d); lia|].
    destruct (Near (fun i => if Nat.eqb i f' then -1 else 0)) as (q2 & -> & E2); [intros i; destruct (Nat.eqb i f'); lia|].
    destruct (Near (fun i => if Nat.eqb i d then 1 else if Nat.eqb i f' then -1 else 0)) as (q3 & -> & E3); [intros i; destruct (Nat.eqb i d), (Nat.eqb i f'); lia|].
    eexists; split; [reflexivity|]. rewrite E0, E1, E2, E3. unfold affine, unit_off. rewrite !shifted_pos. rewrite <- LZ.
    pose proof (four_dot a d f' Z0 NE 0) as FD.
    setoid_replace (dot a (pos (-1 # 2) d 0 Z0)) with
      (4 * dot a (pos (-1 # 2) f' 0 Z0) - dot a (pos (-1#2) d 0 (vadd Z0 (map (fun j => if Nat.eqb j d then 1 else 0)%Z (seq 0 (length Z0)))))
       - dot a (pos (-1#2) d 0 (vadd Z0 (map (fun j => if Nat.eqb j f' then -1 else 0)%Z (seq 0 (length Z0)))))
       - dot a (pos (-1#2) d 0 (vadd Z0 (map (fun j => if Nat.eqb j d then 1 else if Nat.eqb j f' then -1 else 0)%Z (seq 0 (length Z0))))))%Q
      by (rewrite <- FD; ring). ring. }
  unfold iStaggeredCellSample. destruct (Nat.leb_spec dim f) as [G|G]; destruct (Nat.ltb_spec f dim) as [G'|G']; try lia.
  - assert (IL : length (incr (f - dim) X) = dim).
    { rewrite <- LX at 2. generalize (f - dim)%nat as i. clear. induction X as [|x X IH]; intros [|i]; cbn; auto. }
    destruct (Core (incr (f - dim) X) (f - dim)%nat IL ltac:(lia)) as (r & E & Er).
    { generalize (f - dim)%nat as i. clear. induction X as [|x X IH]; intros [|i]; cbn; constructor; try lia; auto.
      clear. induction X; constructor; auto; lia. }
    exists r. split; [exact E|]. rewrite Er. unfold affine. apply Qplus_comp; [reflexivity|].
    generalize (f - dim)%nat as i. clear. revert a. induction X as [|x X IH]; intros [|q a] [|i]; cbn; try reflexivity.
    + rewrite inject_Z_plus. change (inject_Z 1) with 1%Q. ring.
    + rewrite IH. reflexivity.
  - destruct (Core X f LX G) as (r & E & Er); [clear; induction X; constructor; auto; lia|]. eauto.
Qed.
Print Assumptions C76_staggered_sample.

(** The accessor of a grid of side length 1 mistakes the node (2^31-1) for the
    empty cache entry and reads block -1, where a direct read gives the
    background value. *)
Theorem C76_accessor_side1_refuted :
  let w2i := fun q : Q => [q] in
  let g := fresh Z 0 1 4 1 7 0 in
  let es := [EProbe Z Q 0 [2 ^ 31 - 1]] in
  Forall (ev_ok w2i 1 1) es /\
  run_acc Z Q w2i 0 1 g (acc0 1) es = None /\
  direct (fun g o => step Z Q w2i 0 1 (Some g) o) (value Z 0 1) (hasVoxel Z 0) g es = Some ([(false, 7)], g).
Proof. cbv zeta. split; [repeat constructor; cbn; lia|]. split; vm_compute; reflexivity. Qed.
Print Assumptions C76_accessor_side1_refuted.

(** An accessor outliving a clear of the table reads block -1 through its stale
    entry, where a direct read gives the background value. *)
Theorem C76_accessor_stale_refuted :
  let w2i := fun q : Q => [q] in
  let g := fresh Z 2 1 4 1 7 0 in
  let es := [EOp Z Q (OInsert Z Q (5#1)%Q); EProbe Z Q 0 [5]; EClear Z Q; EProbe Z Q 0 [6]] in
  run_acc Z Q w2i 2 1 g (acc0 1) es = None /\
  value Z 2 1 (table_clear Z (snd (insert Z Q w2i 2 g (5#1)%Q))) 0 [6] = Some 7.
Proof. split; vm_compute; reflexivity. Qed.
Print Assumptions C76_accessor_stale_refuted.

(** A concrete run: two positions in one block (also with negative coordinates)
    and one in another; the hypotheses of the theorems hold. *)
Definition ex_ops : list (op Z (list Q)) :=
  [OInsert Z _ [(-3#4); (17#5)]%Q; OSet Z _ 1 [-1; 2] 5; OReset Z _ 3; OSet Z _ 0 [-4; 3] 9;
   OInsert Z _ [(-13#4); 2]%Q; OInsert Z _ [(1#2); 0]%Q; OSet Z _ 1 [3; 0] 8].
Example C76_ex : Forall (op_ok (fun x => x) 2 2) ex_ops /\
  (exists g, run Z _ (fun x => x) 2 2 (fresh Z 2 2 2 2 (-7) 0) ex_ops = Some g /\ (length (gkeys Z g) <= 2)%nat /\
     gkeys Z g = [[-4; 0]; [0; 0]] /\
     value Z 2 2 g 1 [-1; 2] = Some 3 /\ value Z 2 2 g 0 [-4; 3] = Some 9 /\ value Z 2 2 g 1 [3; 0] = Some 8 /\
     value Z 2 2 g 0 [4; 0] = Some (-7) /\ hasVoxel Z 2 g [4; 0] = false) /\
  blocks_at_most (V := Z) (fun x => x) (side 2) 2 ex_ops.
Proof.
  split; [repeat constructor; cbn; lia|]. split.
  - eexists. split; [vm_compute; reflexivity|]. repeat split; vm_compute; lia || reflexivity.
  - exists [[-1; 3]; [0; 0]]. split; [cbn; lia|]. intros x N H NN.
    apply nearest_unique in NN. cbn in H.
    destruct H as [H|[H|[H|[H|[H|[H|[H|[]]]]]]]]; try discriminate; injection H as <-; vm_compute in NN; subst N.
    + exists [-1; 3]. split; [left; reflexivity|]. repeat constructor.
    + exists [-1; 3]. split; [left; reflexivity|]. repeat constructor.
    + exists [0; 0]. split; [right; left; reflexivity|]. repeat constructor.
Qed.
