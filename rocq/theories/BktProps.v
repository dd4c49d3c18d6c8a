(** C78: active blocks cover what the transfers touch; index buckets hold exactly
    the particles of their cell. *)
From Coq Require Import QArith Qround Qabs Lqa.
From Verif Require Import Prelude KernModel BktModel BktSpec BktProofs.
From Verif Require MpmModel MpmProps SgModel SgProofs2 HashTableModel.
Import SgModel(coordT, find_key, sentinel_v).
Open Scope Z_scope.

(** ** Sparsity *)
(** after the launch the table holds exactly the blocks of the particles' (shifted)
    nearest nodes, once each, in whatever order the insertions happened *)
Theorem C78_sparsity : forall dx disp off bl order, 0 < bl ->
  let keys := compute_sparsity dx disp off bl order in
  NoDup keys /\ (length keys <= length order)%nat /\
  forall c, In c keys <-> exists x, In x order /\ c = map (fun v => (Qfloor (v * (1 / dx) + disp) + off) / bl) x.
Proof.
  intros dx disp off bl order Hb. cbv zeta. destruct (sparsity_spec dx disp off bl order) as (N & I & L). split; [exact N|]. split; [exact L|].
  intros c. rewrite I. split; intros (x & Hx & E); exists x; (split; [assumption|]); [rewrite <- E|rewrite E];
    unfold particle_block; rewrite block_div by assumption; unfold cell_coord; rewrite map_map; reflexivity.
Qed.
Print Assumptions C78_sparsity.

(** enlarging adds exactly the neighbours in the box, and renumbers nothing *)
Theorem C78_enlarge : forall lohi keys order, NoDup keys -> Permutation (seq 0 (length keys)) order ->
  NoDup (enlarge lohi keys order) /\ (exists t, enlarge lohi keys order = keys ++ t) /\
  forall c, In c (enlarge lohi keys order) <->
    In c keys \/ exists key d, In key keys /\ Forall2 (fun lh x => fst lh <= x < snd lh) lohi d /\ c = vadd key d.
Proof.
  intros lohi keys order N P.
  destruct (enlarge_spec lohi order keys keys N) as (N' & T & I).
  { exists []. rewrite app_nil_r. reflexivity. }
  { intros i Hi. rewrite <- P in Hi. apply in_seq in Hi. lia. }
  split; [exact N'|]. split; [exact T|]. intros c. rewrite I. split; (intros [H|H]; [auto|right]).
  - destruct H as (i & d & Hi & Hd & E). rewrite <- P in Hi. apply in_seq in Hi. exists (nth i keys []), d.
    split; [apply nth_In; apply Hi|]. split; [apply box_in; assumption|auto].
  - destruct H as (key & d & Hk & Hd & E). apply (In_nth _ _ []) in Hk as (i & Hi & Ei). exists i, d.
    split; [rewrite <- P; apply in_seq; split; [apply Nat.le_0_l|exact Hi]|]. split; [apply box_in; assumption|]. rewrite E. f_equal. exact Ei.
Qed.
Print Assumptions C78_enlarge.

(** partition, then enlarge by the next block in each axis: every block the
    particle-to-grid transfer touches is active, for blocks of side 4 and more *)
Definition position_of (p : MpmModel.particle) : position := [MpmModel.px p 0%nat; MpmModel.px p 1%nat; MpmModel.px p 2%nat].
Lemma base_shift (v dx : Q) : Qfloor (v * (1 / dx) + (1#2)) + -2 = Qfloor (v / dx - (1#2)) - 1.
Proof.
  assert (Qfloor (v * (1 / dx) + (1#2)) = Qfloor (v / dx - (1#2)) + 1); [|lia].
  rewrite (Qfloor_comp _ ((v / dx - (1#2)) + inject_Z 1)%Q) by (change (inject_Z 1) with 1%Q; unfold Qdiv; ring).
  set (q := (v / dx - (1#2))%Q). clearbody q.
  pose proof (Qfloor_le q). pose proof (Qlt_floor q) as L. pose proof (Qfloor_le (q + inject_Z 1)%Q). pose proof (Qlt_floor (q + inject_Z 1)%Q) as L'.
  rewrite inject_Z_plus in L, L'. change (inject_Z 1) with 1%Q in *.
  assert (X1 : (inject_Z (Qfloor (q + 1)) < inject_Z (Qfloor q + 2))%Q) by (rewrite inject_Z_plus; change (inject_Z 2) with 2%Q; Lqa.lra).
  assert (X2 : (inject_Z (Qfloor q) < inject_Z (Qfloor (q + 1)))%Q) by Lqa.lra.
  rewrite <- Zlt_Qlt in X1, X2. lia.
Qed.
Theorem C78_partition_covers : forall k dx ps order order2,
  2 <= k -> Permutation (map position_of ps) order ->
  let keys := partition_for_particles dx (2 ^ k) order in
  Permutation (seq 0 (length keys)) order2 ->
  let keys' := enlarge [(0, 2); (0, 2); (0, 2)] keys order2 in
  (forall p z, In p ps -> MpmProps.stencil_node dx p z -> In (map (fun x => x / 2 ^ k) z) keys') /\
  (forall dt stress m, exists m', MpmModel.p2g_run k keys' dx dt stress ps m m').
Proof.
  intros k dx ps order order2 Hk P keys P2 keys'.
  assert (B : 4 <= 2 ^ k) by (change 4 with (2 ^ 2); apply Z.pow_le_mono_r; lia).
  destruct (C78_sparsity dx (1#2) (-2) (2 ^ k) order ltac:(lia)) as (N & _ & I). fold keys in N, I.
  destruct (C78_enlarge [(0, 2); (0, 2); (0, 2)] keys order2 N P2) as (_ & _ & J). fold keys' in J.
  assert (Cov : forall p z, In p ps -> MpmProps.stencil_node dx p z -> In (map (fun x => x / 2 ^ k) z) keys').
  { intros p z Hp (i & j & l & Hi & Hj & Hl & ->). apply J. right.
    assert (Hkey : In (map (fun v => (Qfloor (v * (1 / dx) + (1#2)) + -2) / 2 ^ k) (position_of p)) keys).
    { apply I. exists (position_of p). split; [|reflexivity]. rewrite <- P. apply in_map. assumption. }
    cbn [position_of map] in Hkey. rewrite !base_shift in Hkey.
    assert (D : forall b i, (i < 3)%nat -> exists d, 0 <= d < 2 /\ (Z.of_nat i + b) / 2 ^ k = (b - 1) / 2 ^ k + d).
    { intros b n Hn. exists ((Z.of_nat n + b) / 2 ^ k - (b - 1) / 2 ^ k). split; [|lia].
      assert ((b - 1) / 2 ^ k <= (Z.of_nat n + b) / 2 ^ k) by (apply Z.div_le_mono; lia).
      assert ((Z.of_nat n + b) / 2 ^ k <= (b - 1 + 1 * 2 ^ k) / 2 ^ k) by (apply Z.div_le_mono; lia).
      rewrite Z.div_add in * by lia. lia. }
    cbn [map].
    destruct (D (Qfloor (MpmModel.px p 0%nat / dx - (1#2))) i Hi) as (d0 & R0 & E0).
    destruct (D (Qfloor (MpmModel.px p 1%nat / dx - (1#2))) j Hj) as (d1 & R1 & E1).
    destruct (D (Qfloor (MpmModel.px p 2%nat / dx - (1#2))) l Hl) as (d2 & R2 & E2).
    eexists. exists [d0; d1; d2]. split; [exact Hkey|]. split; [repeat constructor; cbn; lia|].
    unfold vadd. cbn [combine map fst snd]. rewrite E0, E1, E2. reflexivity. }
  split; [exact Cov|]. intros dt stress m. apply MpmProps.C77_defined; [lia|]. exact Cov.
Qed.
Print Assumptions C78_partition_covers.

(** blocks of side 2 are not covered *)
Theorem C78_partition_side2_refuted : exists p z,
  let keys := partition_for_particles 1 (2 ^ 1) (map position_of [p]) in
  MpmProps.stencil_node 1 p z /\
  ~ In (map (fun x => x / 2 ^ 1) z) (enlarge [(0, 2); (0, 2); (0, 2)] keys (seq 0 (length keys))).
Proof.
  exists (MpmModel.mkP 1 (fun _ => 5#2) (fun _ => 0%Q) (fun _ => 0%Q) 1 (fun _ => 0%Q)), [4; 4; 4]. cbv zeta. split.
  - exists 2%nat, 2%nat, 2%nat. repeat split; try lia.
  - vm_compute. intuition discriminate.
Qed.
Print Assumptions C78_partition_side2_refuted.

(** the table partition_for_particles allocates: no slot at all for fewer
    particles than a block has cells, and too few for scattered ones *)
Theorem C78_partition_capacity_refuted :
  (forall n, (n < 64)%nat -> partition_slots 3 4 n = 0%nat) /\
  (forall q, (0 < q)%nat -> exists order, length order = (64 * q)%nat /\
     (partition_slots 3 4 (length order) < length (partition_for_particles 1 4 order))%nat).
Proof.
  split.
  - intros n Hn. unfold partition_slots. cbn [Nat.iter nat_rect].
    replace (Z.of_nat n / 4 / 4 / 4) with 0; [reflexivity|]. rewrite !Z.div_div by lia. symmetry. apply Z.div_small. lia.
  - intros q Hq. exists (map (fun i => [inject_Z (4 * Z.of_nat i); 0%Q; 0%Q]) (seq 0 (64 * q))).
    split; [rewrite map_length, seq_length; reflexivity|]. rewrite map_length, seq_length. unfold partition_slots. cbn [Nat.iter nat_rect].
    replace (Z.of_nat (64 * q) / 4 / 4 / 4) with (Z.of_nat q).
    2:{ rewrite !Z.div_div by lia. replace (Z.of_nat (64 * q)) with (Z.of_nat q * 64) by lia. change (4 * 4 * 4) with 64. rewrite Z.div_mul; lia. }
    rewrite Nat2Z.id. unfold HashTableModel.table_size. destruct (Nat.eqb_spec q 0) as [->|_]; [lia|].
    assert (Up : (2 ^ Nat.log2_up q <= 2 * q)%nat).
    { destruct (Nat.eq_dec q 1) as [->|]; [cbn; lia|]. pose proof (Nat.log2_up_spec q ltac:(lia)) as [L _].
      destruct (Nat.log2_up q) as [|u] eqn:Eu; [cbn; lia|]. cbn [Nat.pred] in L. rewrite Nat.pow_succ_r'. lia. }
    destruct (C78_sparsity 1 (1#2) (-2) 4 (map (fun i => [inject_Z (4 * Z.of_nat i); 0%Q; 0%Q]) (seq 0 (64 * q))) ltac:(lia)) as (N & _ & I).
    set (K := compute_sparsity _ _ _ _ _) in *. change (partition_for_particles 1 4 _) with K.
    enough (64 * q <= length K)%nat as HK by (apply Nat.lt_le_trans with (64 * q)%nat; [lia|exact HK]).
    rewrite <- (seq_length (64 * q) 0), <- (map_length (fun i => [Z.of_nat i - 1; -1; -1])). apply NoDup_incl_length.
    + apply FinFun.Injective_map_NoDup; [|apply seq_NoDup]. intros a b E. injection E. lia.
    + intros c Hc. apply in_map_iff in Hc as (i & <- & Hi). apply I. eexists. split; [apply in_map_iff; exists i; split; [reflexivity|assumption]|].
      cbn [map]. f_equal.
      assert (F : Qfloor (inject_Z (4 * Z.of_nat i) * (1 / 1) + (1#2)) = 4 * Z.of_nat i).
      { set (z := 4 * Z.of_nat i). rewrite (Qfloor_comp _ (inject_Z z + (1#2))%Q) by (unfold Qdiv; field).
        pose proof (Qfloor_le (inject_Z z + (1#2))) as A. pose proof (Qlt_floor (inject_Z z + (1#2))) as C.
        rewrite inject_Z_plus in C. change (inject_Z 1) with 1%Q in C.
        set (f := Qfloor (inject_Z z + (1 # 2))) in *.
        assert (X1 : (inject_Z z < inject_Z (f + 1))%Q) by (rewrite inject_Z_plus; change (inject_Z 1) with 1%Q; Lqa.lra).
        assert (X2 : (inject_Z f < inject_Z (z + 1))%Q) by (rewrite inject_Z_plus; change (inject_Z 1) with 1%Q; Lqa.lra).
        rewrite <- Zlt_Qlt in X1, X2. lia. }
      rewrite F. apply (Z.div_unique _ _ _ 2); [left; lia|lia].
Qed.
Print Assumptions C78_partition_capacity_refuted.

(** ** Index buckets *)
Section B.
Variables (dx disp : Q) (xs : list position) (order1 order2 : list nat) (evs : list ev) (idx0 : Z -> Z).
Hypothesis P1 : Permutation (seq 0 (length xs)) order1.
Hypothesis P2 : Permutation (seq 0 (length xs)) order2.
Hypothesis Hs : schedule (length xs) evs.
Let bs := index_buckets dx disp xs order1 order2 evs idx0.
Let cellof p := cell_coord dx disp 0 (nth p xs []).
Lemma cell_eq p : cell dx disp xs p = cellof p.
Proof. unfold cell, particle_block. rewrite block1. reflexivity. Qed.
Lemma table_spec : NoDup (table bs) /\ (forall c, In c (table bs) <-> exists p, (p < length xs)%nat /\ cellof p = c).
Proof.
  destruct (sparsity_spec dx disp 0 1 (map (pos xs) order1)) as (N & I & _). split; [exact N|]. intros c.
  change (table bs) with (compute_sparsity dx disp 0 1 (map (pos xs) order1)). rewrite I. split.
  - intros (x & Hx & E). apply in_map_iff in Hx as (p & <- & Hp). rewrite <- P1 in Hp. apply in_seq in Hp. exists p. split; [lia|].
    unfold cellof. rewrite <- E. unfold particle_block. rewrite block1. reflexivity.
  - intros (p & Hp & E). exists (pos xs p). split; [apply in_map; rewrite <- P1; apply in_seq; lia|]. unfold particle_block. rewrite block1. exact E.
Qed.
Lemma counts_eq b : counts bs b = Z.of_nat (length (filter (fun p => b =? cellno dx disp xs (table bs) p) (seq 0 (length xs)))).
Proof. change (counts bs b) with (count_run dx disp xs (table bs) order2 b). rewrite counts_spec. f_equal. apply Permutation_length, filter_perm. symmetry. assumption. Qed.
Lemma keys_ok p : (p < length xs)%nat -> In (cell dx disp xs p) (table bs).
Proof. intros Hp. apply table_spec. exists p. split; [assumption|]. rewrite cell_eq. reflexivity. Qed.
Lemma members_eq c : members (cell dx disp xs) (length xs) c = members cellof (length xs) c.
Proof. unfold members. apply filter_ext. intros p. rewrite cell_eq. reflexivity. Qed.
Lemma main : forall b, (b < length (table bs))%nat ->
  counts bs (Z.of_nat b) = Z.of_nat (length (members cellof (length xs) (nth b (table bs) []))) /\
  Permutation (map Z.of_nat (members cellof (length xs) (nth b (table bs) []))) (piece (indices bs) (offsets bs (Z.of_nat b)) (counts bs (Z.of_nat b))).
Proof.
  intros b Hb. rewrite <- members_eq. split.
  - rewrite counts_eq, (members_filter dx disp xs (table bs) (length xs) keys_ok (proj1 table_spec)) by assumption. reflexivity.
  - change (offsets bs (Z.of_nat b)) with (scan (counts bs) (Z.to_nat (Z.of_nat b))). rewrite Nat2Z.id.
    apply (bucket_perm dx disp xs (table bs) (length xs) keys_ok (proj1 table_spec) (counts bs) counts_eq evs idx0 b Hs Hb).
Qed.
Lemma offs : (forall b, (b <= length (table bs))%nat -> offsets bs (Z.of_nat b) = scan (counts bs) b) /\
  scan (counts bs) (length (table bs)) = Z.of_nat (length xs) /\
  Permutation (map Z.of_nat (seq 0 (length xs))) (piece (indices bs) 0 (Z.of_nat (length xs))).
Proof.
  split; [|split].
  - intros b _. change (offsets bs (Z.of_nat b)) with (scan (counts bs) (Z.to_nat (Z.of_nat b))). rewrite Nat2Z.id. reflexivity.
  - apply (scan_total dx disp xs (table bs) (length xs) keys_ok (counts bs) counts_eq).
  - apply (all_perm dx disp xs (table bs) (length xs) keys_ok (counts bs) counts_eq evs idx0 Hs).
Qed.
End B.

(** one bucket per occupied cell; consecutive pieces of [indices] list exactly the
    particles of each cell, once each, for every interleaving of the three launches *)
Theorem C78_buckets : forall dx disp xs order1 order2 evs idx0,
  Permutation (seq 0 (length xs)) order1 -> Permutation (seq 0 (length xs)) order2 -> schedule (length xs) evs ->
  let bs := index_buckets dx disp xs order1 order2 evs idx0 in
  let cellof p := map (fun v => Qfloor (v * (1 / dx) + disp) + 0) (nth p xs []) in
  NoDup (table bs) /\
  (forall c, In c (table bs) <-> exists p, (p < length xs)%nat /\ cellof p = c) /\
  (forall b, (b < length (table bs))%nat ->
     counts bs (Z.of_nat b) = Z.of_nat (length (members cellof (length xs) (nth b (table bs) []))) /\
     Permutation (map Z.of_nat (members cellof (length xs) (nth b (table bs) [])))
                 (piece (indices bs) (offsets bs (Z.of_nat b)) (counts bs (Z.of_nat b))) /\
     offsets bs (Z.of_nat (S b)) = offsets bs (Z.of_nat b) + counts bs (Z.of_nat b)) /\
  offsets bs 0 = 0 /\ offsets bs (Z.of_nat (length (table bs))) = Z.of_nat (length xs) /\
  Permutation (map Z.of_nat (seq 0 (length xs))) (piece (indices bs) 0 (Z.of_nat (length xs))).
Proof.
  intros dx disp xs order1 order2 evs idx0 P1 P2 Hs bs cellof.
  destruct (table_spec dx disp xs order1 order2 evs idx0 P1) as [N I]. split; [exact N|]. split; [exact I|].
  destruct (offs dx disp xs order1 order2 evs idx0 P1 P2 Hs) as (O & T & A). split.
  - intros b Hb. destruct (main dx disp xs order1 order2 evs idx0 P1 P2 Hs b Hb) as [M1 M2]. split; [exact M1|]. split; [exact M2|].
    unfold bs. rewrite !O by (fold bs; lia). reflexivity.
  - split; [reflexivity|]. split; [unfold bs; rewrite O by lia; exact T|exact A].
Qed.
Print Assumptions C78_buckets.

(** neighbour search: every particle within dx of a position is listed in the
    bucket of the position's cell or of one of the cells around it *)
Theorem C78_neighbours : forall dx xs order1 order2 evs idx0 x q,
  (0 < dx)%Q ->
  Permutation (seq 0 (length xs)) order1 -> Permutation (seq 0 (length xs)) order2 -> schedule (length xs) evs ->
  let bs := index_buckets dx (1#2) xs order1 order2 evs idx0 in
  (q < length xs)%nat -> close dx x (nth q xs []) ->
  exists c, adjacent (bucketCoord true bs x) c /\
    let b := bucketNo bs c in
    0 <= b < Z.of_nat (length (table bs)) /\ In (Z.of_nat q) (piece (indices bs) (offsets bs b) (counts bs b)).
Proof.
  intros dx xs order1 order2 evs idx0 x q Hd P1 P2 Hs bs Hq Hc.
  destruct (C78_buckets dx (1#2) xs order1 order2 evs idx0 P1 P2 Hs) as (N & I & M & _). fold bs in N, I, M.
  set (cellof := fun p => map (fun v => Qfloor (v * (1 / dx) + (1#2)) + 0) (nth p xs [])) in *.
  exists (cellof q). split.
  - pose proof (close_adjacent dx (1#2) x (nth q xs []) Hd Hc) as A. unfold bucketCoord. change (bdx bs) with dx.
    replace (map (fun v => lower_trunc (v * (1 / dx) + (1#2))%Q) x) with (cell_coord dx (1#2) 0 x); [exact A|].
    apply map_ext. intros. apply Z.add_0_r.
  - cbv zeta. assert (Hin : In (cellof q) (table bs)) by (apply I; eauto).
    unfold bucketNo. destruct (SgProofs2.find_key_in _ _ 0 (Z.le_refl 0) Hin) as (j & Hj & Ej & _). rewrite Ej, Z.add_0_l.
    assert (Lj : (j < length (table bs))%nat) by (apply nth_error_Some; congruence). split; [lia|].
    destruct (M j Lj) as (_ & Pm & _). rewrite <- Pm. apply in_map. apply filter_In. split; [apply in_seq; lia|].
    rewrite (nth_error_nth _ _ _ Hj). destruct (list_eq_dec Z.eq_dec (cellof q) (cellof q)); [reflexivity|congruence].
Qed.
Print Assumptions C78_neighbours.

(** a check of interleavings for the examples *)
Fixpoint in_order (seen : list nat) (evs : list ev) : bool :=
  match evs with
  | [] => true
  | Fetch p :: r => in_order (p :: seen) r
  | Store p :: r => existsb (Nat.eqb p) seen && in_order seen r
  end.
Lemma in_order_spec evs : forall seen, in_order seen evs = true -> forall p a b, evs = a ++ Store p :: b -> In p seen \/ In (Fetch p) a.
Proof.
  induction evs as [|e evs IH]; intros seen H p a b E; [destruct a; discriminate|].
  destruct a as [|e' a]; cbn in E; injection E as -> E.
  - cbn in H. apply andb_true_iff in H as [H _]. apply existsb_exists in H as (q & Hq & Eq). apply Nat.eqb_eq in Eq. subst. left. assumption.
  - destruct e' as [q|q]; cbn in H.
    + destruct (IH _ H p a b E) as [[->|I]|I]; [right; left; reflexivity|left; assumption|right; right; assumption].
    + apply andb_true_iff in H as [_ H]. destruct (IH _ H p a b E) as [I|I]; [left; assumption|right; right; assumption].
Qed.

(** the view always assumes displacement 0.5: built with another one, a particle
    is not found around its own position *)
Theorem C78_neighbours_displacement_refuted : exists disp x,
  let bs := index_buckets 1 disp [x] [0%nat] [0%nat] [Fetch 0; Store 0] (fun _ => 0) in
  schedule 1 [Fetch 0; Store 0] /\ bucketNo bs (bucketCoord true bs x) = sentinel_v.
Proof.
  exists 0%Q, [3#4; 0; 0]%Q. cbv zeta. split; [|reflexivity].
  split; [repeat constructor; cbn; intuition discriminate|]. split; [intros p Hp; replace p with O by lia; cbn; auto|].
  split; [intros e [<-|[<-|[]]]; lia|].
  intros p a b E. destruct (in_order_spec _ [] (eq_refl : in_order [] [Fetch 0; Store 0] = true) p a b E) as [[]|I]. exact I.
Qed.
Print Assumptions C78_neighbours_displacement_refuted.

(** four particles in three cells, fetches and stores interleaved *)
Example C78_ex :
  let xs := [[1#10; 0]; [9#10; 0]; [-(1#10); 1#10]; [-(7#10); 2]]%Q in
  let evs := [Fetch 2; Fetch 0; Store 0; Fetch 3; Store 3; Fetch 1; Store 2; Store 1] in
  let bs := index_buckets 1 (1#2) xs [2; 0; 3; 1]%nat [0; 1; 2; 3]%nat evs (fun _ => 0) in
  schedule 4 evs /\ table bs = [[0; 0]; [-1; 2]; [1; 0]] /\
  piece (counts bs) 0 4 = [2; 1; 1; 0] /\ piece (offsets bs) 0 4 = [0; 2; 3; 4] /\ piece (indices bs) 0 4 = [2; 0; 3; 1] /\
  partition_for_particles 1 4 xs = [[-1; -1]; [-1; 0]].
Proof.
  cbv zeta. split; [|repeat split; reflexivity].
  split; [|split; [|split]].
  - repeat constructor; cbn; intuition discriminate.
  - intros p Hp. destruct p as [|[|[|[|p]]]]; try lia; cbn; auto 10.
  - intros e He. cbn in He. repeat destruct He as [<-|He]; try lia; destruct He.
  - intros p a b E. destruct (in_order_spec _ [] (eq_refl : in_order [] [Fetch 2; Fetch 0; Store 0; Fetch 3; Store 3; Fetch 1; Store 2; Store 1] = true) p a b E) as [[]|I]. exact I.
Qed.
