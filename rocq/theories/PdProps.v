(* C87: Poisson disk sampling. *)
From Coq Require Import Reals Lra Psatz.
From Verif Require Import Prelude PdModel PdSpec PdProofs PdProofs2 PdProofs3 PdProofs4 PdProofs5 PdProofs6.
Local Open Scope R_scope.

(* DenseGrid gives every index of its domain a place of its own among as many places as there are cells ... *)
Theorem C87_grid_offsets alloc dims v idx idx' :
  in_domain idx dims -> in_domain idx' dims ->
  let g := make_grid alloc dims v in
  (0 <= offset g idx < volume dims)%Z /\ (offset g idx = offset g idx' -> idx = idx').
Proof.
  intros H H'. cbn zeta. split; [exact (off_range dims idx H)|]. exact (off_inj dims idx H idx' H').
Qed.
(* ... but it allocates the product of the weights instead of the product of the extents: in the plane
   every row but the first lies outside of the storage *)
Theorem C87_grid_storage_refuted n m v i j :
  in_domain [i; j] [n; m] -> (1 <= i)%Z ->
  get (make_grid storage [n; m] v) [i; j] = None /\ forall w, set (make_grid storage [n; m] v) [i; j] w = None.
Proof.
  intros D Hi. apply dom2 in D as [D1 D2].
  assert (L : length (mem (make_grid storage [n; m] v)) = Z.to_nat m).
  { cbn [make_grid mem]. rewrite repeat_length. unfold storage. cbn. f_equal. lia. }
  pose proof (offset_wf n m _ i j (make_wf storage n m v)) as O.
  assert (B : (m <= i * m)%Z) by nia.
  split.
  - unfold get. rewrite O. destruct (_ <? 0)%Z; [reflexivity|]. apply nth_error_None. rewrite L. lia.
  - intros w. unfold set. rewrite O. destruct (_ <? 0)%Z; [reflexivity|]. rewrite upd_none; [reflexivity|]. rewrite L. lia.
Qed.
Example C87_grid_ex : in_domain [1; 0]%Z [2; 5]%Z /\ get (make_grid storage [2; 5]%Z (-1)) [0; 4]%Z = Some (-1)%Z /\
  get (make_grid storage [2; 5]%Z (-1)) [1; 0]%Z = None.
Proof. split; [apply dom2; lia|]. split; reflexivity. Qed.

(* Hence every call of the sampler in the plane is undefined: already the value it prints at (2, 3) lies outside. *)
Theorem C87_plane_undefined_refuted r lo hi maxAttempts periodic feasible draws draw fuel :
  sample2 r lo hi maxAttempts periodic feasible storage draws draw fuel = Undefined.
Proof.
  unfold sample2, cell_numbers. set (n := ceil _). set (m := ceil ((snd hi - snd lo) / h r)).
  assert (G : get (make_grid storage [n; m] (-1)) [2; 3]%Z = None).
  { unfold get. rewrite (offset_wf n m _ 2 3 (make_wf storage n m (-1))).
    destruct (2 * m + 3 <? 0)%Z eqn:E; [reflexivity|]. apply nth_error_None. cbn [make_grid mem]. rewrite repeat_length.
    unfold storage. cbn [excl_suffix_prod prod fold_right]. apply Z.ltb_ge in E. lia. }
  now rewrite G.
Qed.

(* The rest is about the same program with any other amount of storage.
   A point is accepted exactly if it lies in the grid and is not closer than minDistance to any sample so far. *)
Theorem C87_plane_check_partial r lo hi n m g l p :
  0 < r -> records r lo n m g l -> (volume [n; m] <= Z.of_nat (length (mem g)))%Z ->
  exists b, check_distance r lo hi false p g l = Some b /\
    (b = true <-> in_domain [fst (cell r lo p); snd (cell r lo p)] [n; m] /\ forall q, In q l -> r <= dist p q).
Proof.
  intros Hr Hh V. assert (Ro : roomy n m g).
  { split; [apply Hh|]. cbn in V. lia. }
  destruct (check_defined r lo hi n m g l p Hh Ro) as [b B]. exists b. split; [exact B|]. destruct b.
  - split; [intros _|reflexivity]. destruct (plain_true r lo hi Hr n m g l p Hh B) as (D & _ & N). auto.
  - split; [discriminate|]. intros [D N].
    destruct (check_false r lo hi Hr n m g l p Hh B) as [C|(q & I & C)]; [contradiction|].
    exfalso. apply (proj2 (close_dist r Hr p q)) in C; auto.
Qed.

(* the first point lies in the grid *)
Lemma first_cell r lo hi feasible draws p : 0 < r -> fst lo < fst hi -> snd lo < snd hi ->
  Forall (fun u => 0 <= fst u < 1 /\ 0 <= snd u < 1) draws -> first_point lo hi feasible draws = Some p ->
  feasible p = true /\ in_domain [fst (cell r lo p); snd (cell r lo p)] (cell_numbers r lo hi).
Proof.
  intros Hr Hx Hy Hd F. apply find_some in F as [I F]. split; [exact F|].
  assert (K : exists u v, 0 <= u < 1 /\ 0 <= v < 1 /\ p = (fst lo + (fst hi - fst lo) * u, snd lo + (snd hi - snd lo) * v)).
  { destruct I as [<-|I].
    - exists (1/2), (1/2). split; [lra|]. split; [lra|]. f_equal; lra.
    - apply in_map_iff in I as (w & <- & I). rewrite Forall_forall in Hd. destruct (Hd w I). exists (fst w), (snd w). auto. }
  destruct K as (u & v & Hu & Hv & ->). unfold cell_numbers, cell. cbn [fst snd].
  pose proof (h_pos r Hr) as P.
  assert (Q : forall a L t, 0 < L -> 0 <= t < 1 -> (0 <= Int_part ((a + L * t - a) / h r) < ceil (L / h r))%Z).
  { intros a L t HL Ht. replace ((a + L * t - a) / h r) with (L * t / h r) by (field; lra).
    pose proof (floor_bounds (L * t / h r)) as B. pose proof (ceil_bounds (L / h r)) as C.
    assert (T0 : 0 <= L * t / h r) by (apply Rmult_le_pos; [nra|left; now apply Rinv_0_lt_compat]).
    assert (T1 : L * t / h r < L / h r) by (apply Rmult_lt_compat_r; [now apply Rinv_0_lt_compat|nra]).
    split; [apply IZR_lt_le; lra|]. apply lt_IZR. lra. }
  apply dom2. split; apply Q; lra.
Qed.
(* in a cell of the grid: at least the lower corner, and less than a cell beyond the upper one *)
Lemma cell_place r a b x : 0 < r -> (0 <= Int_part ((x - a) / h r) < ceil ((b - a) / h r))%Z -> a <= x < b + r / sqrt 2.
Proof.
  intros Hr [A B]. pose proof (h_pos r Hr) as P. pose proof (floor_div r Hr a x) as [C D].
  pose proof (ceil_bounds ((b - a) / h r)) as [_ E].
  change (r / sqrt 2) with (h r). apply IZR_le in A.
  assert (B' : IZR (Int_part ((x - a) / h r)) + 1 <= IZR (ceil ((b - a) / h r))) by (rewrite <- plus_IZR; apply IZR_le; lia).
  assert (F : (b - a) / h r * h r = b - a) by (field; lra).
  split; [nra|]. assert (IZR (ceil ((b - a) / h r)) * h r < ((b - a) / h r + 1) * h r) by (apply Rmult_lt_compat_r; lra). nra.
Qed.

(* With any storage: if the call returns, the samples are feasible, pairwise at least minDistance apart, lie in the box
   or less than a cell beyond its upper corner, and each is between one and two minDistances away from an earlier one. *)
Theorem C87_plane_samples_partial r lo hi maxAttempts feasible alloc draws draw fuel l :
  0 < r -> fst lo < fst hi -> snd lo < snd hi ->
  Forall (fun u => 0 <= fst u < 1 /\ 0 <= snd u < 1) draws -> annulus draw ->
  sample2 r lo hi maxAttempts false feasible alloc draws draw fuel = Finished l ->
  apart dist r l /\
  (forall p, In p l -> feasible p = true /\ fst lo <= fst p < fst hi + r / sqrt 2 /\ snd lo <= snd p < snd hi + r / sqrt 2) /\
  (forall k q, nth_error l (S k) = Some q -> exists k' q', (k' < S k)%nat /\ nth_error l k' = Some q' /\ r <= dist q q' <= 2 * r) /\
  l <> [].
Proof.
  intros Hr Hx Hy Hd An E. unfold sample2 in E.
  destruct (get _ [2; 3]%Z); [|discriminate].
  destruct (first_point lo hi feasible draws) as [p|] eqn:F; [|discriminate].
  destruct (first_cell r lo hi feasible draws p Hr Hx Hy Hd F) as [Fp Dp].
  destruct (set _ _ 0) as [g|] eqn:S in E; [|discriminate].
  unfold cell_numbers in S, Dp. set (n := ceil ((fst hi - fst lo) / h r)) in *. set (m := ceil ((snd hi - snd lo) / h r)) in *.
  pose (sep := fun p q => r <= dist p q). pose (near := fun p q => r <= dist p q <= 2 * r).
  assert (I0 : inv r lo feasible n m sep (State [p] [0%nat] g)) by (eapply start_inv; eauto).
  assert (R0 : reached near [p]) by (intros k q N; destruct k; discriminate).
  destruct (rounds_inv r lo hi maxAttempts false feasible n m sep near
     ltac:(unfold sep; intros; rewrite dist_sym; assumption)
     ltac:(intros g' l' p' Hh Hc; exact (plain_true r lo hi Hr n m g' l' p' Hh Hc))
     (candidate_dist r lo hi Hr) draw fuel An 0 _ l I0 R0 E) as (s' & (Hh & Ha & Hf & _) & <- & Hre & ps & Hps).
  split; [exact Ha|]. split.
  - intros q I. rewrite Forall_forall in Hf. split; [now apply Hf|].
    apply In_nth_error in I as [k N]. destruct Hh as (_ & Hs & _). destruct (Hs k q N) as [D _]. apply dom2 in D as [D1 D2].
    split; now apply cell_place.
  - split; [exact Hre|]. rewrite Hps. discriminate.
Qed.
(* With storage for every cell and for the printed value, the call returns after at most twice as many rounds as there are cells. *)
Theorem C87_plane_finishes_partial r lo hi maxAttempts feasible alloc draws draw fuel :
  0 < r -> fst lo < fst hi -> snd lo < snd hi ->
  Forall (fun u => 0 <= fst u < 1 /\ 0 <= snd u < 1) draws -> annulus draw ->
  let n := cell_numbers r lo hi in
  (volume n <= alloc n)%Z -> (2 * nth 1 n 0 + 3 < alloc n)%Z ->
  first_point lo hi feasible draws <> None ->
  (2 * volume n <= Z.of_nat fuel)%Z ->
  exists l, sample2 r lo hi maxAttempts false feasible alloc draws draw fuel = Finished l.
Proof.
  intros Hr Hx Hy Hd An ds V P23 F Fu. unfold sample2.
  destruct (first_point lo hi feasible draws) as [p|] eqn:Fe; [|congruence].
  destruct (first_cell r lo hi feasible draws p Hr Hx Hy Hd Fe) as [Fp Dp].
  unfold ds, cell_numbers in *. set (n := ceil ((fst hi - fst lo) / h r)) in *. set (m := ceil ((snd hi - snd lo) / h r)) in *. cbn [nth] in P23.
  pose proof (proj1 (dom2 _ _ _ _) Dp) as [D1 D2].
  assert (Ro : roomy n m (make_grid alloc [n; m] (-1))).
  { split; [apply make_wf|]. cbn [make_grid mem]. rewrite repeat_length. cbn in V. lia. }
  assert (G23 : exists c, get (make_grid alloc [n; m] (-1)) [2; 3]%Z = Some c).
  { unfold get. rewrite (offset_wf n m _ 2 3 (make_wf alloc n m (-1))). destruct (_ <? 0)%Z eqn:E; [lia|].
    apply nth_error_lt_some. cbn [make_grid mem]. rewrite repeat_length. lia. }
  destruct G23 as [c ->].
  destruct (set_roomy n m _ _ _ 0%Z Ro D1 D2) as (g & S & Rg). rewrite S.
  pose (sep := fun p q => r <= dist p q). pose (near := fun p q => r <= dist p q <= 2 * r).
  assert (I0 : inv r lo feasible n m sep (State [p] [0%nat] g)) by (eapply start_inv; eauto).
  assert (R0 : reached near [p]) by (intros k q N; destruct k; discriminate).
  apply (rounds_finish r lo hi maxAttempts false feasible n m sep near
     ltac:(unfold sep; intros; rewrite dist_sym; assumption)
     ltac:(intros g' l' p' Hh Hc; exact (plain_true r lo hi Hr n m g' l' p' Hh Hc))
     ltac:(intros g' l' p' Hh Hc; exact (check_defined r lo hi n m g' l' p' Hh Hc))
     (candidate_dist r lo hi Hr) draw An fuel 0 _ I0 Rg R0).
  cbn [samples active length]. cbn [volume fold_right] in Fu. assert (1 <= n * m)%Z by nia. lia.
Qed.
Example C87_plane_ex : annulus (two_draws far_v away_v) /\
  sample2 (sqrt 2) (0, 0) far_hi 1 false far_ok twenty [] (two_draws far_v away_v) 3 = Finished [(0.75, 0.75); (1.9, 1.9)].
Proof.
  split; [|exact far_run]. intros n i. cbn. pose proof sqrt2_bounds. destruct n; cbn; [|lra].
  replace (1.15 / (sqrt 2 * 2) * (1.15 / (sqrt 2 * 2))) with (1.15 * 1.15 / (4 * (sqrt 2 * sqrt 2))) by (field; lra).
  rewrite sqrt2_sqr. lra.
Qed.
(* samples can lie beyond the upper corner of the box *)
Theorem C87_plane_box_refuted : exists r lo hi feasible alloc draw l p,
  annulus draw /\ sample2 r lo hi 1 false feasible alloc [] draw 3 = Finished l /\ In p l /\ ~ in_box lo hi p.
Proof.
  exists (sqrt 2), (0, 0), far_hi, far_ok, twenty, (two_draws far_v away_v). do 2 eexists.
  split; [exact (proj1 C87_plane_ex)|]. split; [exact far_run|]. split; [right; left; reflexivity|].
  unfold in_box, far_hi. cbn. lra.
Qed.

(* A candidate of the periodic sampler is the image of the point it was drawn at, moved by whole sides of the box, and lies in the
   box if the center does and the annulus is not wider than the box. *)
Theorem C87_periodic_candidate r lo hi center v :
  in_box lo hi center -> Rabs (2 * r * fst v) <= fst hi - fst lo -> Rabs (2 * r * snd v) <= snd hi - snd lo ->
  let p := candidate r lo hi true center v in
  in_box lo hi p /\ exists k l, p = image lo hi (fst center + 2 * r * fst v, snd center + 2 * r * snd v) k l.
Proof.
  intros [H1 H2] A B.
  assert (P : forall a b c d, a <= c <= b -> Rabs d <= b - a -> a <= pull a b (c + d) <= b /\ exists k, pull a b (c + d) = c + d + IZR k * (b - a)).
  { intros a b c d C D. assert (D' : - (b - a) <= d <= b - a) by (unfold Rabs in D; destruct (Rcase_abs d); lra). unfold pull.
    destruct (Rlt_dec (c + d) a); [split; [lra|exists 1%Z; lra]|]. destruct (Rlt_dec b (c + d)); [split; [lra|exists (-1)%Z; lra]|split; [lra|exists 0%Z; lra]]. }
  cbv zeta. unfold candidate. replace (fst v * (r * 2) + fst center) with (fst center + 2 * r * fst v) by lra. replace (snd v * (r * 2) + snd center) with (snd center + 2 * r * snd v) by lra.
  destruct (P _ _ _ _ H1 A) as [I1 [k K]]. destruct (P _ _ _ _ H2 B) as [I2 [l L]]. split; [split; cbn [fst snd]; assumption|]. exists k, l. unfold image. cbn [fst snd]. now rewrite <- K, <- L.
Qed.
Print Assumptions C87_periodic_candidate.

(* Periodic boxes whose sides are whole numbers, at least three, of cells: distances are kept across the borders as well. *)
Theorem C87_periodic_partial r lo hi n m maxAttempts feasible alloc draws draw fuel l :
  0 < r -> (3 <= n)%Z -> (3 <= m)%Z -> fst hi - fst lo = IZR n * (r / sqrt 2) -> snd hi - snd lo = IZR m * (r / sqrt 2) ->
  Forall (fun u => 0 <= fst u < 1 /\ 0 <= snd u < 1) draws -> annulus draw ->
  sample2 r lo hi maxAttempts true feasible alloc draws draw fuel = Finished l ->
  forall i j p q, i <> j -> nth_error l i = Some p -> nth_error l j = Some q ->
  forall k k', r <= dist p (image lo hi q k k').
Proof.
  intros Hr Hn Hm Ln Lm Hd An E. change (r / sqrt 2) with (h r) in *. pose proof (h_pos r Hr) as P.
  assert (Cn : ceil ((fst hi - fst lo) / h r) = n) by (rewrite Ln; apply ceil_is; replace (IZR n * h r / h r) with (IZR n) by (field; lra); lra).
  assert (Cm : ceil ((snd hi - snd lo) / h r) = m) by (rewrite Lm; apply ceil_is; replace (IZR m * h r / h r) with (IZR m) by (field; lra); lra).
  assert (Hx : fst lo < fst hi). { assert (3 <= IZR n) by (apply IZR_le; lia). nra. }
  assert (Hy : snd lo < snd hi). { assert (3 <= IZR m) by (apply IZR_le; lia). nra. }
  unfold sample2 in E. destruct (get _ [2; 3]%Z); [|discriminate].
  destruct (first_point lo hi feasible draws) as [p|] eqn:F; [|discriminate].
  destruct (first_cell r lo hi feasible draws p Hr Hx Hy Hd F) as [Fp Dp].
  destruct (set _ _ 0) as [g|] eqn:S in E; [|discriminate].
  unfold cell_numbers in S, Dp. rewrite Cn, Cm in *.
  pose (sep := fun p q => forall k k', r <= dist p (image lo hi q k k')). pose (near := fun _ _ : pt => True).
  assert (I0 : inv r lo feasible n m sep (State [p] [0%nat] g)) by (eapply start_inv; eauto).
  assert (R0 : reached near [p]) by (intros k q N; destruct k; discriminate).
  destruct (rounds_inv r lo hi maxAttempts true feasible n m sep near
     ltac:(unfold sep; intros a b; apply image_sym)
     ltac:(intros g' l' p' Hh Hc; exact (wrapped_true r lo hi n m Hr Hn Hm Ln Lm g' l' p' Hh Hc))
     ltac:(intros; exact I) draw fuel An 0 _ l I0 R0 E) as (s' & (_ & Ha & _) & <- & _).
  exact Ha.
Qed.
(* hypotheses of the previous theorem can be met: a box of 3 by 3 cells *)
Example C87_periodic_ex : fst (3, 3) - fst (0, 0) = IZR 3 * (sqrt 2 / sqrt 2).
Proof. change (sqrt 2 / sqrt 2) with (h (sqrt 2)). rewrite h_sqrt2. cbn. lra. Qed.
(* for other sides two samples can be too close to each other across the border *)
Theorem C87_periodic_refuted : exists r lo hi feasible alloc draws draw l p q k k',
  annulus draw /\ Forall (fun u => 0 <= fst u < 1 /\ 0 <= snd u < 1) draws /\
  sample2 r lo hi 1 true feasible alloc draws draw 3 = Finished l /\
  nth_error l 0 = Some p /\ nth_error l 1 = Some q /\ dist p (image lo hi q k k') < r.
Proof.
  exists (sqrt 2), (0, 0), seam_hi, seam_ok, twenty, seam_draws, (two_draws seam_v away_v). do 3 eexists. exists (-1)%Z, 0%Z.
  pose proof sqrt2_bounds.
  split.
  { intros n i. cbn. destruct n; cbn; [|lra].
    replace (1.95 / (sqrt 2 * 2) * (1.95 / (sqrt 2 * 2))) with (1.95 * 1.95 / (4 * (sqrt 2 * sqrt 2))) by (field; lra).
    rewrite sqrt2_sqr. lra. }
  split; [repeat constructor; cbn; lra|]. split; [exact seam_run|]. split; [reflexivity|]. split; [reflexivity|].
  unfold dist, image, seam_hi. cbn. apply sqrt_lt_1_alt. lra.
Qed.

(* In space: with at least one worker, the samples are exactly the feasible points of the box that belong to the reference set,
   scaled by minDistance and repeated with period 120 minDistance in every direction from the lower corner on. *)
Theorem C87_space r lo hi feasible w data p : 0 < r -> (0 < w)%nat -> Forall within60 data ->
  (In p (sample3 r lo hi feasible w data) <->
   feasible p = true /\ in_box3 lo hi p /\ exists q k, In q data /\ p = laid_out r lo q k).
Proof.
  intros Hr Hw Hd.
  assert (E : In p (sample3 r lo hi feasible w data) <-> In p (flat_map (copies r lo hi feasible) data)).
  { split; apply Permutation_in; [|symmetry]; now apply workers. }
  rewrite E, in_flat_map. rewrite Forall_forall in Hd. split.
  - intros (q & Iq & Ip). apply in_copies in Ip as (F & B & k & ->); [|exact Hr|now apply Hd]. split; [exact F|]. split; [exact B|]. eauto.
  - intros (F & B & q & k & Iq & Ek). exists q. split; [exact Iq|]. apply in_copies; [exact Hr|now apply Hd|]. eauto.
Qed.
(* their number and multiplicities do not depend on the number of workers *)
Theorem C87_space_workers r lo hi feasible w w' data : (0 < w)%nat -> (0 < w')%nat ->
  Permutation (sample3 r lo hi feasible w data) (sample3 r lo hi feasible w' data).
Proof. intros H H'. rewrite (workers r lo hi feasible w data H). symmetry. now apply workers. Qed.
(* if the repeated reference set keeps the distance 1, the samples keep minDistance *)
Theorem C87_space_apart r lo hi feasible w data : 0 < r -> tile_apart data -> apart dist3 r (sample3 r lo hi feasible w data).
Proof. intros Hr T. now apply sample3_apart. Qed.
(* hardware_concurrency() may be 0: then nothing is sampled *)
Theorem C87_space_no_worker_refuted : exists r lo hi feasible data p,
  0 < r /\ Forall within60 data /\ In p (sample3 r lo hi feasible 1 data) /\ sample3 r lo hi feasible 0 data = [].
Proof.
  exists 1, (Pt3 0 0 0), (Pt3 10 10 10), (fun _ => true), [Pt3 5 5 5], (Pt3 5 5 5).
  assert (W : within60 (Pt3 5 5 5)) by (unfold within60; cbn; lra).
  split; [lra|]. split; [now constructor|]. split; [|reflexivity].
  apply C87_space; [lra|lia|now constructor|]. split; [reflexivity|]. split; [unfold in_box3; cbn; lra|].
  exists (Pt3 5 5 5), (0, 0, 0)%Z. split; [now left|]. unfold laid_out, translate. cbn. f_equal; lra.
Qed.
(* two points of the reference set, and their repetitions *)
Example C87_space_ex : tile_apart [Pt3 0 0 0; Pt3 30 0 0] /\ Forall within60 [Pt3 0 0 0; Pt3 30 0 0].
Proof.
  split; [|repeat constructor; cbn; lra].
  assert (A : forall x : R, forall k : Z, x = 0 \/ x = 30 \/ x = -30 -> k <> 0%Z -> 1 <= (x - 120 * IZR k) * (x - 120 * IZR k)).
  { intros x k Hx Hk. assert (K : (k <= -1 \/ 1 <= k)%Z) by lia. destruct K as [K|K]; apply IZR_le in K; nra. }
  assert (L : forall a b c, 1 <= a * a \/ 1 <= b * b \/ 1 <= c * c -> 1 <= sqrt (a * a + b * b + c * c)).
  { intros a b c H. rewrite <- sqrt_1 at 1. apply sqrt_le_1_alt. pose proof (Rle_0_sqr a). pose proof (Rle_0_sqr b). pose proof (Rle_0_sqr c). unfold Rsqr in *. lra. }
  intros i j q q' [[a b] c] Hi Hj H.
  assert (K : (i <> j /\ a = 0%Z) \/ a <> 0%Z \/ b <> 0%Z \/ c <> 0%Z).
  { destruct (Z.eq_dec a 0) as [->|]; [|tauto]. destruct (Z.eq_dec b 0) as [->|]; [|tauto]. destruct (Z.eq_dec c 0) as [->|]; [|tauto].
    left. split; [|reflexivity]. intros ->. destruct H as [H|H]; congruence. }
  destruct i as [|[|[|i]]]; try discriminate; destruct j as [|[|[|j]]]; try discriminate; injection Hi as <-; injection Hj as <-;
    unfold dist3, translate; cbn [x0 x1 x2]; apply L.
  - destruct K as [[K _]|[K|[K|K]]]; [congruence|left|right; left|right; right].
    all: match goal with |- 1 <= (0 - (0 + 120 * IZR ?k)) * _ => replace (0 - (0 + 120 * IZR k)) with (0 - 120 * IZR k) by ring; apply A; [tauto|exact K] end.
  - destruct K as [[_ ->]|[K|[K|K]]]; [left; lra|left|right; left|right; right].
    + replace (0 - (30 + 120 * IZR a)) with (-30 - 120 * IZR a) by ring. apply A; tauto.
    + replace (0 - (0 + 120 * IZR b)) with (0 - 120 * IZR b) by ring. apply A; tauto.
    + replace (0 - (0 + 120 * IZR c)) with (0 - 120 * IZR c) by ring. apply A; tauto.
  - destruct K as [[_ ->]|[K|[K|K]]]; [left; lra|left|right; left|right; right].
    + replace (30 - (0 + 120 * IZR a)) with (30 - 120 * IZR a) by ring. apply A; tauto.
    + replace (0 - (0 + 120 * IZR b)) with (0 - 120 * IZR b) by ring. apply A; tauto.
    + replace (0 - (0 + 120 * IZR c)) with (0 - 120 * IZR c) by ring. apply A; tauto.
  - destruct K as [[K _]|[K|[K|K]]]; [congruence|left|right; left|right; right].
    + replace (30 - (30 + 120 * IZR a)) with (0 - 120 * IZR a) by ring. apply A; tauto.
    + replace (0 - (0 + 120 * IZR b)) with (0 - 120 * IZR b) by ring. apply A; tauto.
    + replace (0 - (0 + 120 * IZR c)) with (0 - 120 * IZR c) by ring. apply A; tauto.
Qed.

Print Assumptions C87_grid_offsets.
Print Assumptions C87_grid_storage_refuted.
Print Assumptions C87_plane_undefined_refuted.
Print Assumptions C87_plane_check_partial.
Print Assumptions C87_plane_samples_partial.
Print Assumptions C87_plane_finishes_partial.
Print Assumptions C87_plane_box_refuted.
Print Assumptions C87_periodic_partial.
Print Assumptions C87_periodic_refuted.
Print Assumptions C87_space.
Print Assumptions C87_space_workers.
Print Assumptions C87_space_apart.
Print Assumptions C87_space_no_worker_refuted.
