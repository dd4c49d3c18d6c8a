(** C77: the material point transfers conserve mass, linear and angular momentum
    in any order of their atomic additions, and reproduce affine velocity
    fields. *)
From Coq Require Import QArith Qround Lqa Qfield.
From Verif Require Import Prelude KernModel KernSpec MpmModel MpmSpec MpmProofs MpmProofs2.
From Verif Require SgModel SgProofs2.
Import SgModel(coordT, find_key, sentinel_v).
Local Open Scope Q_scope.

(** ** Addressing *)
Theorem C77_nodes_have_own_cells : forall k keys z z' s dx,
  (0 <= k)%Z -> length z = 3%nat -> length z' = 3%nat -> slot_of k keys z = Some s ->
  In s (slots k keys) /\
  (forall d, (d < 3)%nat -> node_pos k keys dx (fst s) (snd s) d == inject_Z (nth d z 0%Z) * dx) /\
  (slot_of k keys z' = Some s -> z' = z).
Proof.
  intros k keys z z' [b c] dx Hk L L' E. destruct (slot_spec k Hk _ _ _ _ L E) as [I P]. split; [exact I|]. split; [exact (P dx)|].
  intros E'. destruct (slot_spec k Hk _ _ _ _ L' E') as [_ P'].
  assert (N : forall d, (d < 3)%nat -> nth d z' 0%Z = nth d z 0%Z).
  { intros d Hd. pose proof (P 1 d Hd) as A. pose proof (P' 1 d Hd) as B. rewrite A in B. rewrite !Qmult_1_r in B.
    symmetry. apply inject_Z_injective. exact B. }
  destruct z as [|a [|b' [|c' [|]]]]; try discriminate. destruct z' as [|a' [|b'' [|c'' [|]]]]; try discriminate.
  pose proof (N 0%nat ltac:(lia)). pose proof (N 1%nat ltac:(lia)). pose proof (N 2%nat ltac:(lia)). cbn in *. subst. reflexivity.
Qed.
Print Assumptions C77_nodes_have_own_cells.

(** the launch is defined exactly when every stencil node's block is active *)
Definition stencil_node (dx : Q) (p : particle) (z : coordT) : Prop :=
  exists i j l, (i < 3)%nat /\ (j < 3)%nat /\ (l < 3)%nat /\
    z = [Z.of_nat i + Qfloor (px p 0%nat / dx - (1#2)); Z.of_nat j + Qfloor (px p 1%nat / dx - (1#2)); Z.of_nat l + Qfloor (px p 2%nat / dx - (1#2))]%Z.
Lemma stencil_coord dx p z : stencil_node dx p z <-> exists loc, In loc arange /\ coord (make_local_arena dx (px p)) loc = z.
Proof.
  assert (B : forall x, base_node 1 x = Qfloor (x - (1#2))).
  { intros x. unfold base_node, lower_trunc. apply Qfloor_comp. change (inject_Z (Z.of_nat 1)) with 1. ring. }
  split.
  - intros (i & j & l & Hi & Hj & Hl & ->). exists [i; j; l]. split.
    + destruct i as [|[|[|i]]]; try lia; destruct j as [|[|[|j]]]; try lia; destruct l as [|[|[|l]]]; try lia; cbn; tauto.
    + unfold coord. cbn [axes map nth acorner make_local_arena]. rewrite !B. reflexivity.
  - intros (loc & Hin & <-). unfold coord. cbn [axes map acorner make_local_arena]. rewrite !B.
    exists (nth 0 loc 0%nat), (nth 1 loc 0%nat), (nth 2 loc 0%nat).
    cbn in Hin. repeat destruct Hin as [<-|Hin]; try destruct Hin; cbn [nth]; repeat split; try lia; reflexivity.
Qed.
Lemma slot_active k keys z : (0 <= k)%Z -> slot_of k keys z <> None <-> In (map (fun x => x / 2 ^ k)%Z z) keys.
Proof.
  intros Hk. unfold slot_of. rewrite (block_div k Hk). change (fun x => x / side k)%Z with (fun x => x / 2 ^ k)%Z.
  destruct (in_dec (list_eq_dec Z.eq_dec) (map (fun x => x / 2 ^ k)%Z z) keys) as [I|I].
  - destruct (SgProofs2.find_key_in _ _ 0 (Z.le_refl 0) I) as (j & _ & -> & _).
    destruct (Z.eqb_spec (0 + Z.of_nat j) sentinel_v); [unfold sentinel_v in *; lia|]. split; [auto|discriminate].
  - rewrite (SgProofs2.find_key_notin _ _ 0 I), Z.eqb_refl. split; [congruence|contradiction].
Qed.
Theorem C77_defined : forall k keys dx dt stress ps m, (0 <= k)%Z ->
  (exists m', p2g_run k keys dx dt stress ps m m') <->
  (forall p z, In p ps -> stencil_node dx p z -> In (map (fun x => x / 2 ^ k)%Z z) keys).
Proof.
  intros k keys dx dt stress ps m Hk. split.
  - intros (m' & R) p z Hp Hz. apply stencil_coord in Hz as (loc & Hl & <-). apply slot_active; [assumption|].
    rewrite (run_active k keys dx dt stress _ _ _ _ _ R Hp Hl). discriminate.
  - intros H. assert (exists l, p2g_incs k keys dx dt stress ps = Some l) as [l E].
    { apply all_some_ok. intros p Hp. destruct (all_some_ok (p2g_node k keys dx dt stress p) arange) as [r Er].
      - intros loc Hl. unfold p2g_node.
        assert (S : slot_of k keys (coord (make_local_arena dx (px p)) loc) <> None).
        { apply slot_active; [assumption|]. apply (H p _ Hp). apply stencil_coord. exists loc. auto. }
        destruct (slot_of _ _ _) as [[b c]|]; [discriminate|congruence].
      - unfold p2g_particle. rewrite Er. discriminate. }
    eexists. exists l, l. split; [exact E|]. split; reflexivity.
Qed.
Print Assumptions C77_defined.

(** ** Particles to grid: any order of the additions *)
Theorem C77_p2g_totals : forall k keys dx dt stress ps m m',
  (0 <= k)%Z -> ~ dx == 0 -> p2g_run k keys dx dt stress ps m m' ->
  grid_total m' 0 (slots k keys) == grid_total m 0 (slots k keys) + mass ps /\
  (forall d, (d < 3)%nat ->
    grid_total m' (1 + d) (slots k keys) == grid_total m (1 + d) (slots k keys) + momentum d ps) /\
  (forall d, (d < 3)%nat -> grid_total m' (4 + d) (slots k keys) == grid_total m (4 + d) (slots k keys)).
Proof.
  intros k keys dx dt stress ps m m' Hk Hx R. pose proof (scatter1 k keys dx dt Hk stress _ _ _ 0 R) as S0. split; [exact S0|].
  split; intros d Hd.
  - pose proof (scatter1 k keys dx dt Hk stress _ _ _ (1 + d) R) as S. rewrite S. apply Qplus_comp; [reflexivity|]. unfold momentum. apply total_ext.
    intros p _. destruct d as [|[|[|d]]]; try lia; reflexivity.
  - pose proof (scatter1 k keys dx dt Hk stress _ _ _ (4 + d) R) as S. rewrite S, total_zero; [ring|]. intros p _. reflexivity.
Qed.
Print Assumptions C77_p2g_totals.

(** the grid's centre of mass is the particles' *)
Theorem C77_p2g_center : forall k keys dx dt stress ps m m' d,
  (0 <= k)%Z -> ~ dx == 0 -> p2g_run k keys dx dt stress ps m m' -> (forall b ch c, m b ch c == 0) -> (d < 3)%nat ->
  total (fun s => m' (fst s) 0%nat (snd s) * node_pos k keys dx (fst s) (snd s) d) (slots k keys)
  == total (fun p => pm p * px p d) ps.
Proof.
  intros k keys dx dt stress ps m m' d Hk Hx R Hz Hd. pose proof (moment k keys dx dt Hk Hx stress _ _ _ 0 d R Hd) as M.
  unfold pair in M. rewrite M, total_zero, Qplus_0_l by (intros; rewrite Hz; ring). apply total_ext. intros. cbn [chal chbe]. ring.
Qed.
Print Assumptions C77_p2g_center.

Lemma torque_push k keys dx dt stress ps m m' ch0 d : (0 <= k)%Z -> ~ dx == 0 -> p2g_run k keys dx dt stress ps m m' -> (d < 3)%nat ->
  grid_torque m' ch0 d (node_pos k keys dx) (slots k keys) == grid_torque m ch0 d (node_pos k keys dx) (slots k keys)
   + total (fun p => (chal p (ch0 + nxt2 d) * px p (nxt d) - chal p (ch0 + nxt d) * px p (nxt2 d))
       + dx * dx * (1#4) * (chbe dx dt stress p (ch0 + nxt2 d) (nxt d) - chbe dx dt stress p (ch0 + nxt d) (nxt2 d))) ps.
Proof.
  intros Hk Hx R Hd.
  assert (N1 : (nxt d < 3)%nat) by (apply Nat.mod_upper_bound; lia).
  assert (N2 : (nxt2 d < 3)%nat) by (apply Nat.mod_upper_bound; lia).
  pose proof (moment k keys dx dt Hk Hx stress _ _ _ (ch0 + nxt2 d) (nxt d) R N1) as M1.
  pose proof (moment k keys dx dt Hk Hx stress _ _ _ (ch0 + nxt d) (nxt2 d) R N2) as M2.
  assert (T : forall mm, grid_torque mm ch0 d (node_pos k keys dx) (slots k keys) ==
    pair mm (ch0 + nxt2 d) (fun s => node_pos k keys dx (fst s) (snd s) (nxt d)) (slots k keys)
    - pair mm (ch0 + nxt d) (fun s => node_pos k keys dx (fst s) (snd s) (nxt2 d)) (slots k keys)).
  { intros mm. unfold grid_torque, pair.
    rewrite (total_ext _ (fun s => mm (fst s) (ch0 + nxt2 d)%nat (snd s) * node_pos k keys dx (fst s) (snd s) (nxt d)
       + -1 * (mm (fst s) (ch0 + nxt d)%nat (snd s) * node_pos k keys dx (fst s) (snd s) (nxt2 d)))) by (intros; unfold crossd; ring).
    rewrite total_plus, total_scale. ring. }
  rewrite !T, M1, M2.
  rewrite (total_ext (fun p => (chal p (ch0 + nxt2 d) * px p (nxt d) - _) + _)
    (fun p => (chal p (ch0 + nxt2 d) * px p (nxt d) + chbe dx dt stress p (ch0 + nxt2 d) (nxt d) * (dx * dx * (1#4)))
       + -1 * (chal p (ch0 + nxt d) * px p (nxt2 d) + chbe dx dt stress p (ch0 + nxt d) (nxt2 d) * (dx * dx * (1#4))))) by (intros; ring).
  rewrite (total_plus _ (fun p => -1 * _)), total_scale. ring.
Qed.
Theorem C77_p2g_angular : forall k keys dx dt stress ps m m' d,
  (0 <= k)%Z -> ~ dx == 0 -> p2g_run k keys dx dt stress ps m m' -> (d < 3)%nat ->
  grid_torque m' 1 d (node_pos k keys dx) (slots k keys)
  == grid_torque m 1 d (node_pos k keys dx) (slots k keys) + angular dx d ps.
Proof.
  intros k keys dx dt stress ps m m' d Hk Hx R Hd. rewrite (torque_push _ _ _ _ _ _ _ _ 1 d Hk Hx R Hd).
  apply Qplus_comp; [reflexivity|]. unfold angular. apply total_ext. intros p _. unfold crossd, spin, affine_of, nxt, nxt2.
  destruct d as [|[|[|d]]]; try lia; cbn [Nat.add Nat.modulo Nat.divmod fst snd Nat.sub chal chbe Nat.mul]; ring.
Qed.
Print Assumptions C77_p2g_angular.
(** what GridAngularMomentum reports, in any order *)
Theorem C77_reported_momentum : forall k keys dx dt stress ps m m' order sum0,
  (0 <= k)%Z -> ~ dx == 0 -> p2g_run k keys dx dt stress ps m m' ->
  (forall b ch c, m b ch c == 0) -> Forall (fun p => 0 <= pm p) ps -> Permutation (slots k keys) order ->
  forall d, (d < 3)%nat ->
  angular_momentum k keys dx m' sum0 order d == sum0 d + angular dx d ps /\
  angular_momentum k keys dx m' sum0 order (3 + d)%nat == sum0 (3 + d)%nat + momentum d ps.
Proof.
  intros k keys dx dt stress ps m m' order sum0 Hk Hx R Hz Fm P d Hd.
  assert (Z0 : forall s e, In s order -> (e < 3)%nat -> m' (fst s) 0%nat (snd s) == 0 -> m' (fst s) (1 + e)%nat (snd s) == 0).
  { intros [b c] e Hs He. apply (no_mass k keys dx dt Hk stress ps m m' b c e R Fm Hz He). rewrite P. exact Hs. }
  assert (G : forall order sum0, (forall s e, In s order -> (e < 3)%nat -> m' (fst s) 0%nat (snd s) == 0 -> m' (fst s) (1 + e)%nat (snd s) == 0) ->
    angular_momentum k keys dx m' sum0 order d == sum0 d + grid_torque m' 1 d (node_pos k keys dx) order /\
    angular_momentum k keys dx m' sum0 order (3 + d)%nat == sum0 (3 + d)%nat + grid_total m' (1 + d) order).
  { clear - Hd. induction order as [|[b c] order IH]; intros sum0 Z0.
    - unfold angular_momentum, grid_torque, grid_total, total. cbn [fold_left map qsum fold_right]. split; ring.
    - change (angular_momentum k keys dx m' sum0 ((b, c) :: order)) with (angular_momentum k keys dx m' (angular_inc k keys dx m' sum0 (b, c)) order).
      destruct (IH (angular_inc k keys dx m' sum0 (b, c))) as [I1 I2]; [intros s e Hs; apply Z0; right; assumption|].
      rewrite I1, I2. unfold grid_torque, grid_total. rewrite !total_cons. cbn [fst snd].
      unfold angular_inc. destruct (Qeq_bool (m' b 0%nat c) 0) eqn:Eq.
      + apply Qeq_bool_iff in Eq. assert (V : forall e, (e < 3)%nat -> m' b (1 + e)%nat c == 0) by (intros e He; apply (Z0 (b, c) e); auto; left; reflexivity).
        assert (N1 : (nxt d < 3)%nat) by (apply Nat.mod_upper_bound; lia).
        assert (N2 : (nxt2 d < 3)%nat) by (apply Nat.mod_upper_bound; lia).
        unfold crossd. rewrite !V by assumption. split; ring.
      + destruct d as [|[|[|d]]]; try lia; cbn [Nat.ltb Nat.leb Nat.add Nat.sub]; unfold crossd, nxt, nxt2, cross;
          cbn [nth Nat.add Nat.modulo Nat.divmod Nat.sub fst snd]; split; ring. }
  destruct (G order sum0 Z0) as [G1 G2]. rewrite G1, G2.
  assert (T1 : grid_torque m' 1 d (node_pos k keys dx) order == angular dx d ps).
  { unfold grid_torque. rewrite <- (total_perm _ _ _ P). pose proof (C77_p2g_angular k keys dx dt stress ps m m' d Hk Hx R Hd) as A.
    unfold grid_torque in A. rewrite A, total_zero; [ring|]. intros s _. unfold crossd. rewrite !Hz. ring. }
  assert (T2 : grid_total m' (1 + d) order == momentum d ps).
  { unfold grid_total. rewrite <- (total_perm _ _ _ P). destruct (C77_p2g_totals k keys dx dt stress ps m m' Hk Hx R) as (_ & A & _).
    specialize (A d Hd). unfold grid_total in A. rewrite A, total_zero; [ring|]. intros s _. apply Hz. }
  rewrite T1, T2. split; reflexivity.
Qed.
Print Assumptions C77_reported_momentum.

(** internal forces: no resultant (above) and, for a symmetric stress, no torque *)
Theorem C77_internal_torque : forall k keys dx dt stress ps m m' d,
  (0 <= k)%Z -> ~ dx == 0 -> p2g_run k keys dx dt stress ps m m' -> (d < 3)%nat ->
  (forall p, In p ps -> symmetric (stress p)) ->
  grid_torque m' 4 d (node_pos k keys dx) (slots k keys) == grid_torque m 4 d (node_pos k keys dx) (slots k keys).
Proof.
  intros k keys dx dt stress ps m m' d Hk Hx R Hd Hs. rewrite (torque_push _ _ _ _ _ _ _ _ 4 d Hk Hx R Hd).
  rewrite total_zero; [ring|]. intros p Hp. pose proof (Hs p Hp) as S.
  pose proof (S 0%nat 1%nat ltac:(lia) ltac:(lia)) as S1. pose proof (S 0%nat 2%nat ltac:(lia) ltac:(lia)) as S2. pose proof (S 1%nat 2%nat ltac:(lia) ltac:(lia)) as S3.
  cbn in S1, S2, S3. unfold nxt, nxt2.
  destruct d as [|[|[|d]]]; try lia; cbn [Nat.add Nat.modulo Nat.divmod fst snd Nat.sub chal chbe Nat.mul]; unfold contrib; rewrite ?S1, ?S2, ?S3; ring.
Qed.
Print Assumptions C77_internal_torque.
Theorem C77_eos_symmetric : forall md p, symmetric (eos_stress md p).
Proof.
  intros md p i j Hi Hj. unfold eos_stress. destruct i as [|[|[|i]]]; try lia; destruct j as [|[|[|j]]]; try lia; cbn [Nat.add Nat.mul nth]; ring.
Qed.
Print Assumptions C77_eos_symmetric.

(** ** Grid to particles: an affine velocity field is reproduced *)
Definition lin (A : nat -> nat -> Q) (x : vec) (i : nat) : Q := A i 0%nat * x 0%nat + A i 1%nat * x 1%nat + A i 2%nat * x 2%nat.
Theorem C77_g2p_affine : forall k keys dx dt eqs m p p' v0 A,
  (0 <= k)%Z -> ~ dx == 0 -> g2p k keys dx dt eqs m p = Some p' ->
  (forall b c d, In (b, c) (slots k keys) -> (d < 3)%nat -> m b (1 + d)%nat c == v0 d + lin A (node_pos k keys dx b c) d) ->
  pm p' = pm p /\
  (forall d, (d < 3)%nat -> pv p' d == v0 d + lin A (px p) d) /\
  (forall i j, (i < 3)%nat -> (j < 3)%nat -> affine_of p' i j == A i j) /\
  (forall d, (d < 3)%nat -> px p' d == px p d + dt * pv p' d) /\
  (eqs = true -> pJ p' == pJ p * (1 + dt * (A 0%nat 0%nat + A 1%nat 1%nat + A 2%nat 2%nat)) /\ pF p' = pF p) /\
  (eqs = false -> pJ p' = pJ p /\
     forall i j, (i < 3)%nat -> (j < 3)%nat ->
       pF p' (i + 3 * j)%nat == pF p (i + 3 * j)%nat + dt * (A i 0%nat * pF p (0 + 3 * j)%nat + A i 1%nat * pF p (1 + 3 * j)%nat + A i 2%nat * pF p (2 + 3 * j)%nat)).
Proof.
  intros k keys dx dt eqs m p p' v0 A Hk Hx E Hm.
  destruct (g2p_spec k keys dx dt Hx _ _ _ _ E) as (M & V & C & X & J & F).
  assert (Vn : forall loc d, In loc arange -> (d < 3)%nat -> m (fst (slotd k keys dx p loc)) (1 + d)%nat (snd (slotd k keys dx p loc))
      == aff dx (px p) (v0 d + lin A (px p) d) (A d) loc).
  { intros loc d Hl Hd. pose proof (g2p_active k keys dx dt _ _ _ _ _ E Hl) as Es. destruct (slotd k keys dx p loc) as [b c]. cbn [fst snd].
    destruct (slot_spec k Hk _ _ _ _ (coord_length dx (px p) loc) Es) as [Hs Hn]. rewrite (Hm b c d Hs Hd). unfold lin.
    rewrite !Hn, !node_diff by (assumption || lia). unfold aff. ring. }
  assert (Ve : forall d, (d < 3)%nat -> pv p' d == v0 d + lin A (px p) d).
  { intros d Hd. rewrite V. rewrite <- (A0 dx (px p) (v0 d + lin A (px p) d) (A d)). apply total_ext. intros loc Hl. rewrite Vn by assumption. reflexivity. }
  assert (Ce : forall i j, (i < 3)%nat -> (j < 3)%nat -> affine_of p' i j == A i j).
  { intros i j Hi Hj. unfold affine_of. rewrite C.
    replace ((i + 3 * j) mod 3)%nat with i by (rewrite Nat.mul_comm, Nat.mod_add, Nat.mod_small by lia; reflexivity).
    replace ((i + 3 * j) / 3)%nat with j by (rewrite Nat.mul_comm, Nat.div_add, Nat.div_small by lia; reflexivity).
    rewrite (total_ext _ (fun loc => weight (make_local_arena dx (px p)) loc * aff dx (px p) (v0 i + lin A (px p) i) (A i) loc * diff (make_local_arena dx (px p)) loc j))
      by (intros loc Hl; rewrite Vn by assumption; reflexivity).
    rewrite A1 by assumption. field. assumption. }
  split; [exact M|]. split; [exact Ve|]. split; [exact Ce|]. split; [intros d Hd; rewrite X; ring|].
  assert (Cn : forall i j, (i < 3)%nat -> (j < 3)%nat -> pC p' (i + 3 * j)%nat == A i j) by exact Ce.
  split; intros ->.
  - split; [|exact F]. rewrite J. pose proof (Cn 0%nat 0%nat ltac:(lia) ltac:(lia)) as C0. pose proof (Cn 1%nat 1%nat ltac:(lia) ltac:(lia)) as C4.
    pose proof (Cn 2%nat 2%nat ltac:(lia) ltac:(lia)) as C8. cbn in C0, C4, C8. rewrite C0, C4, C8. ring.
  - split; [exact J|]. intros i j Hi Hj. rewrite F.
    pose proof (Cn i 0%nat Hi ltac:(lia)) as E0. pose proof (Cn i 1%nat Hi ltac:(lia)) as E1. pose proof (Cn i 2%nat Hi ltac:(lia)) as E2.
    rewrite <- E0, <- E1, <- E2. unfold mul3.
    destruct i as [|[|[|i]]]; try lia; destruct j as [|[|[|j]]]; try lia; cbn [Nat.add Nat.mul nth Nat.land Nat.div2 Nat.odd Nat.even Nat.eqb negb andb]; cbn; ring.
Qed.
Print Assumptions C77_g2p_affine.

(** ** A whole step: P2G on a cleared grid, grid update, G2P *)
Theorem C77_step_conserves : forall k keys dx dt stress extf eqs ps m m1 order ps',
  (0 <= k)%Z -> ~ dx == 0 -> Forall (fun p => 0 <= pm p) ps ->
  (forall b ch c, m b ch c == 0) -> p2g_run k keys dx dt stress ps m m1 ->
  Permutation (slots k keys) order ->
  g2p_all k keys dx dt eqs (grid_velocity dt extf m1 order) ps = Some ps' ->
  mass ps' == mass ps /\
  (forall d, (d < 3)%nat -> momentum d ps' == momentum d ps + dt * mass ps * extf d) /\
  (forall d, (d < 3)%nat -> angular dx d ps' == angular dx d ps + dt * total (fun p => pm p * crossd (px p) extf d) ps).
Proof.
  intros k keys dx dt stress extf eqs ps m m1 order ps' Hk Hx Fm Hz R P G.
  assert (No : NoDup order) by (apply (Permutation_NoDup P), slots_nodup).
  assert (U : forall s d, In s (slots k keys) -> (d < 3)%nat ->
     m1 (fst s) 0%nat (snd s) * grid_velocity dt extf m1 order (fst s) (1 + d)%nat (snd s)
     == m1 (fst s) (1 + d)%nat (snd s) + dt * (m1 (fst s) 0%nat (snd s) * extf d)).
  { intros [b c] d Hs Hd. cbn [fst snd]. rewrite (grid_velocity_cell dt extf order No).
    destruct (in_dec seqd (b, c) order) as [Hi|Hi]; [|exfalso; apply Hi; rewrite <- P; exact Hs].
    unfold upd_cell. destruct (Qeq_bool (m1 b 0%nat c) 0) eqn:Eq.
    - apply Qeq_bool_iff in Eq. rewrite (no_mass k keys dx dt Hk stress ps m m1 b c d R Fm Hz Hd Hs Eq), Eq. ring.
    - apply Qeq_bool_neq in Eq. replace (Nat.leb 1 (1 + d) && Nat.leb (1 + d) 3) with true
        by (symmetry; apply andb_true_iff; rewrite !Nat.leb_le; lia).
      replace (1 + d - 1)%nat with d by lia. field. assumption. }
  split; [|split].
  - unfold mass. symmetry. apply (total_forall2 _ _ _ _ _ (g2p_all_forall2 k keys dx dt _ _ _ _ G)).
    intros p p' _ E. destruct (g2p_spec k keys dx dt Hx _ _ _ _ E) as (-> & _). reflexivity.
  - intros d Hd. rewrite (gather k keys dx dt Hk Hx stress _ _ _ _ _ _ d R Hz G).
    rewrite (total_ext _ _ _ (fun s Hs => U s d Hs Hd)), total_plus, total_scale.
    rewrite (total_ext (fun s => m1 (fst s) 0%nat (snd s) * extf d) (fun s => extf d * m1 (fst s) 0%nat (snd s))) by (intros; ring).
    rewrite total_scale. destruct (C77_p2g_totals k keys dx dt stress ps m m1 Hk Hx R) as (T0 & T1 & _). specialize (T1 d Hd).
    unfold grid_total in T0, T1. rewrite T0, T1.
    rewrite (total_zero (fun s => m (fst s) 0%nat (snd s))), (total_zero (fun s => m (fst s) (1 + d)%nat (snd s))) by (intros; apply Hz). ring.
  - intros d Hd. rewrite (gather_angular k keys dx dt Hk Hx stress _ _ _ _ _ _ d R Hz G Hd).
    assert (N1 : (nxt d < 3)%nat) by (apply Nat.mod_upper_bound; lia).
    assert (N2 : (nxt2 d < 3)%nat) by (apply Nat.mod_upper_bound; lia).
    rewrite (total_ext _ (fun s => crossd (node_pos k keys dx (fst s) (snd s)) (fun e => m1 (fst s) (1 + e)%nat (snd s)) d
      + (dt * extf (nxt2 d) * (m1 (fst s) 0%nat (snd s) * node_pos k keys dx (fst s) (snd s) (nxt d))
         + - dt * extf (nxt d) * (m1 (fst s) 0%nat (snd s) * node_pos k keys dx (fst s) (snd s) (nxt2 d))))).
    2:{ intros s Hs. pose proof (U s (nxt d) Hs N1) as U1. pose proof (U s (nxt2 d) Hs N2) as U2. unfold crossd.
        set (g := grid_velocity dt extf m1 order) in *. set (M := m1 (fst s) 0%nat (snd s)) in *.
        setoid_replace (M * (node_pos k keys dx (fst s) (snd s) (nxt d) * g (fst s) (1 + nxt2 d)%nat (snd s)
              - node_pos k keys dx (fst s) (snd s) (nxt2 d) * g (fst s) (1 + nxt d)%nat (snd s)))
          with (node_pos k keys dx (fst s) (snd s) (nxt d) * (M * g (fst s) (1 + nxt2 d)%nat (snd s))
              - node_pos k keys dx (fst s) (snd s) (nxt2 d) * (M * g (fst s) (1 + nxt d)%nat (snd s))) by ring.
        rewrite U1, U2. ring. }
    rewrite !total_plus, !total_scale. rewrite !(C77_p2g_center k keys dx dt stress ps m m1 _ Hk Hx R Hz) by assumption.
    pose proof (C77_p2g_angular k keys dx dt stress ps m m1 d Hk Hx R Hd) as Ta. unfold grid_torque in Ta. rewrite Ta.
    rewrite (total_zero (fun s => crossd _ (fun e => m (fst s) (1 + e)%nat (snd s)) d)) by (intros; unfold crossd; rewrite !Hz; ring).
    rewrite (total_ext (fun p => pm p * crossd (px p) extf d) (fun p => extf (nxt2 d) * (pm p * px p (nxt d)) + - extf (nxt d) * (pm p * px p (nxt2 d)))) by (intros; unfold crossd; ring).
    rewrite total_plus, !total_scale. ring.
Qed.
Print Assumptions C77_step_conserves.

(** a user expects the stress to act on the particles: it never does, since the
    grid update reads none of the channels P2G writes it to *)
Theorem C77_stress_acts_refuted : forall k keys dx dt stress stress' extf eqs ps m m1 m1' order ps' ps'',
  (0 <= k)%Z -> ~ dx == 0 -> p2g_run k keys dx dt stress ps m m1 -> p2g_run k keys dx dt stress' ps m m1' ->
  Permutation (slots k keys) order ->
  g2p_all k keys dx dt eqs (grid_velocity dt extf m1 order) ps = Some ps' ->
  g2p_all k keys dx dt eqs (grid_velocity dt extf m1' order) ps = Some ps'' ->
  Forall2 (fun p p' => forall d, (d < 3)%nat -> pv p d == pv p' d) ps' ps''.
Proof.
  intros k keys dx dt stress stress' extf eqs ps m m1 m1' order ps' ps'' Hk Hx R R' P G G'.
  assert (No : NoDup order) by (apply (Permutation_NoDup P), slots_nodup).
  assert (S : forall b c ch, In (b, c) (slots k keys) -> (ch < 4)%nat -> m1 b ch c == m1' b ch c).
  { intros b c ch Hin Hc. set (psi := fun s => if seqd s (b, c) then 1 else 0).
    assert (V : forall mm, pair mm ch psi (slots k keys) == mm b ch c).
    { intros mm. unfold pair. rewrite (total_ext _ (fun s => if seqd s (b, c) then mm (fst s) ch (snd s) else 0)).
      - apply (total_delta seqd (fun s => mm (fst s) ch (snd s))); [apply slots_nodup|assumption].
      - intros s _. unfold psi. destruct (seqd s (b, c)); ring. }
    rewrite <- (V m1), <- (V m1'), (scatter k keys dx dt Hk stress _ _ _ ch psi R), (scatter k keys dx dt Hk stress' _ _ _ ch psi R').
    apply Qplus_comp; [reflexivity|]. apply total_ext. intros p _. apply total_ext. intros loc _.
    unfold chq, chbe. destruct ch as [|[|[|[|ch]]]]; try lia; reflexivity. }
  apply g2p_all_forall2 in G. apply g2p_all_forall2 in G'. clear R R'. revert ps'' G'. induction G as [|p p' ps ps' E _ IH]; intros ps'' G'; inversion G' as [|? p'' ? ? E']; subst; constructor.
  - intros d Hd. destruct (g2p_spec k keys dx dt Hx _ _ _ _ E) as (_ & V & _). destruct (g2p_spec k keys dx dt Hx _ _ _ _ E') as (_ & V' & _).
    rewrite V, V'. apply total_ext. intros loc Hl. pose proof (g2p_active k keys dx dt _ _ _ _ _ E Hl) as Es.
    destruct (slotd k keys dx p loc) as [b c]. cbn [fst snd]. destruct (slot_spec k Hk _ _ _ _ (coord_length dx (px p) loc) Es) as [Hs _].
    rewrite !(grid_velocity_cell dt extf order No). destruct (in_dec seqd (b, c) order); [|rewrite S by (assumption || lia); reflexivity].
    unfold upd_cell. assert (Q0 : Qeq_bool (m1 b 0%nat c) 0 = Qeq_bool (m1' b 0%nat c) 0).
    { apply Qeqb_comp; [apply S; [assumption|lia]|reflexivity]. }
    rewrite Q0. destruct (Qeq_bool (m1' b 0%nat c) 0); [rewrite S by (assumption || lia); reflexivity|].
    destruct (Nat.leb 1 (1 + d) && Nat.leb (1 + d) 3); rewrite !S by (assumption || lia); reflexivity.
  - apply IH. assumption.
Qed.
Print Assumptions C77_stress_acts_refuted.

(** two particles whose stencils span two blocks of side 4 *)
Definition ex_keys : list coordT := [[0; 0; 0]; [1; 0; 0]]%Z.
Definition vec3 (a b c : Q) : vec := fun d => nth d [a; b; c] 0.
Definition ex_ps : list particle :=
  [mkP 2 (vec3 (6#5) (13#10) (7#5)) (vec3 1 (-2) 3) (fun e => nth e [0; 1; 0; -1; 0; 0; 0; 0; 0] 0) 1 (fun e => if Nat.eqb (Nat.land e 3) 0 then 1 else 0);
   mkP 3 (vec3 (31#10) 1 1) (vec3 0 1 0) (fun _ => 0) 1 (fun e => if Nat.eqb (Nat.land e 3) 0 then 1 else 0)].
Definition ex_extf : vec := vec3 0 (-10) 0.
Example C77_ex : exists m1 ps',
  p2g_run 2 ex_keys 1 (1#100) (eos_stress (mkEos 1 10 (1#10))) ex_ps (fun _ _ _ => 0) m1 /\
  g2p_all 2 ex_keys 1 (1#100) true (grid_velocity (1#100) ex_extf m1 (slots 2 ex_keys)) ex_ps = Some ps' /\
  mass ps' == 5 /\ momentum 0 ps' == 2 /\ momentum 1 ps' == -(3#2) /\ angular 1 2 ex_ps == 29#10 /\
  angular 1 2 ps' == (29#10) - (117#100).
Proof.
  set (st := eos_stress (mkEos 1 10 (1#10))).
  assert (exists m1, p2g_run 2 ex_keys 1 (1#100) st ex_ps (fun _ _ _ => 0) m1) as [m1 R].
  { apply C77_defined; [lia|]. intros p z Hp (i & j & l & Hi & Hj & Hl & ->).
    destruct Hp as [<-|[<-|[]]]; (destruct i as [|[|[|i]]]; [| | |lia]); (destruct j as [|[|[|j]]]; [| | |lia]); (destruct l as [|[|[|l]]]; [| | |lia]);
      vm_compute; tauto. }
  exists m1. destruct (g2p_all 2 ex_keys 1 (1#100) true (grid_velocity (1#100) ex_extf m1 (slots 2 ex_keys)) ex_ps) as [ps'|] eqn:G; [|exfalso].
  - exists ps'. split; [exact R|]. split; [reflexivity|].
    destruct (C77_step_conserves 2 ex_keys 1 (1#100) st ex_extf true ex_ps (fun _ _ _ => 0) m1 (slots 2 ex_keys) ps') as (A & B & C); auto.
    + lia.
    + discriminate.
    + repeat constructor; discriminate.
    + reflexivity.
    + split; [rewrite A; reflexivity|]. split; [rewrite (B 0%nat) by lia; reflexivity|]. split; [rewrite (B 1%nat) by lia; reflexivity|].
      split; [reflexivity|]. rewrite (C 2%nat) by lia. reflexivity.
  - assert (forall m p, In p ex_ps -> g2p_nodes 2 ex_keys 1 m p <> None) as N.
    { intros m p Hp. unfold g2p_nodes. cbv zeta.
      match goal with |- all_some ?f ?l <> None => destruct (all_some_ok f l) as [r ->]; [|discriminate] end.
      intros loc Hl.
      assert (A : forallb (fun p => forallb (fun loc => match slot_of 2 ex_keys (coord (make_local_arena 1 (px p)) loc) with Some _ => true | None => false end) arange) ex_ps = true)
        by (vm_compute; reflexivity).
      rewrite forallb_forall in A. specialize (A _ Hp). rewrite forallb_forall in A. specialize (A _ Hl).
      destruct (slot_of 2 ex_keys (coord (make_local_arena 1 (px p)) loc)) as [[b c]|]; discriminate. }
    revert G. generalize (grid_velocity (1#100) ex_extf m1 (slots 2 ex_keys)). intros m G.
    assert (S : forall l, (forall p, In p l -> g2p_nodes 2 ex_keys 1 m p <> None) -> g2p_all 2 ex_keys 1 (1#100) true m l <> None).
    { induction l as [|p l IH]; intros Hl; [discriminate|]. cbn [g2p_all]. unfold g2p.
      specialize (IH (fun q Hq => Hl q (or_intror Hq))). specialize (Hl p (or_introl eq_refl)).
      destruct (g2p_nodes 2 ex_keys 1 m p); [|congruence]. cbv zeta.
      destruct (g2p_all 2 ex_keys 1 (1#100) true m l); [discriminate|congruence]. }
    exact (S ex_ps (fun p Hp => N m p Hp) G).
Qed.
