(** C92: ranges, zip, enumerate and chunks. *)
From Verif Require Import Prelude ItModel ItSpec ItProofs ItProofs2 ItProofs3.
From Coq Require Import Lia.
Open Scope Z_scope.

(** Any range put together from ascending integer intervals and arrays by zip and enumerate can be iterated sequentially and in
    parallel, both visit exactly the elements of the range in order, and range_size is their number. *)
Theorem C92_ranges_partial s : valid s -> exists r, build s = Some r /\ completes r (elements s) /\ par_for (fst r) (snd r) = Some (elements s) /\
  range_size r = Some (Z.of_nat (length (elements s))).
Proof.
  intros V. destruct (build_good s V) as (r & at_ & B & G). exists r. split; [exact B|]. split; [exact (good_completes _ _ _ G)|].
  split; [exact (good_parallel _ _ _ G)|]. unfold range_size. rewrite <- (g_start _ _ _ G), (g_dist_end _ _ _ G) by lia. f_equal. lia.
Qed.
Print Assumptions C92_ranges_partial.

(** Chunks visited in parallel: consecutive nonempty pieces of the range, all but the last of the requested size. *)
Theorem C92_chunks_partial s r c : valid s -> build s = Some r -> (0 < c)%nat ->
  exists vs parts cr, chunk_view r (Z.of_nat c) = Some cr /\ par_for (fst cr) (snd cr) = Some vs /\ concat parts = elements s /\
    Forall2 (fun v p => exists b e, v = VRange b e /\ completes (b, e) p /\ par_for b e = Some p /\ (0 < length p <= c)%nat) vs parts /\
    (forall i, (S i < length parts)%nat -> length (nth i parts []) = c).
Proof. intros V B C. destruct (build_good s V) as (r' & at_ & B' & G). rewrite B in B'. injection B' as <-. exact (chunk_visits r (elements s) at_ c G C). Qed.
Print Assumptions C92_chunks_partial.

(** A sequential loop over chunks visits none of them. *)
Theorem C92_chunks_sequential_refuted r c cr : chunk_view r c = Some cr -> forall fuel, seq_for fuel (fst cr) (snd cr) = Visits [].
Proof.
  unfold chunk_view. destruct (range_size r) as [n|]; [|discriminate]. cbn [obind]. destruct (c =? 0); [discriminate|]. intros E fuel. injection E as <-.
  destruct fuel; cbn [seq_for fst snd eq_it]; rewrite Z.eqb_refl; reflexivity.
Qed.
Print Assumptions C92_chunks_sequential_refuted.

(** Ascending and descending ranges with an increment: the sequential loop. *)
Theorem C92_strided t b e inc : wide t -> lo t <= b <= hi t -> lo t <= e <= hi t -> Z.abs (e - b) <= hi t -> lo (diff_t t) <= inc <= hi (diff_t t) ->
  (0 < inc -> b <= e -> exists r, range3 t b e inc = Some r /\ completes r (steps b inc (Z.to_nat ((e - b) / inc)))) /\
  (sgn t = true -> inc < 0 -> e <= b -> exists r, range3 t b e inc = Some r /\ completes r (steps b inc (Z.to_nat ((b - e) / - inc)))).
Proof.
  intros W Hb He D Hi. split.
  - intros I L. eexists. split; [apply range3_up; unfold ok; try assumption; lia|].
    pose proof (Z.div_pos (e - b) inc ltac:(lia) I) as K. pose proof (Z.mul_div_le (e - b) inc I) as K'.
    eexists. cbn [fst snd]. rewrite <- (Z2Nat.id ((e - b) / inc) K) at 1. apply stride_for; unfold ok; try assumption; [lia|]. rewrite Z2Nat.id by exact K. nia.
  - intros S I L. assert (E : diff_t t = t) by (unfold diff_t; destruct t; cbn in *; now rewrite S). rewrite E in Hi.
    eexists. split; [apply range3_down; unfold ok; try assumption; lia|].
    pose proof (Z.div_pos (b - e) (- inc) ltac:(lia) ltac:(lia)) as K. pose proof (Z.mul_div_le (b - e) (- inc) ltac:(lia)) as K'.
    eexists. cbn [fst snd]. rewrite <- (Z2Nat.id ((b - e) / - inc) K) at 1. apply stride_for; unfold ok; try rewrite E; try assumption; [lia|]. rewrite Z2Nat.id by exact K. nia.
Qed.
Print Assumptions C92_strided.

(** If the increment does not divide the length, the last number below the end is left out. *)
Theorem C92_strided_last_refuted t b e inc : wide t -> lo t <= b <= hi t -> lo t <= e <= hi t -> e - b <= hi t -> 0 < inc <= hi (diff_t t) ->
  b <= e -> (e - b) mod inc <> 0 ->
  exists r l k, range3 t b e inc = Some r /\ completes r l /\ b <= b + inc * k < e /\ 0 <= k /\ ~ In (VInt (b + inc * k)) l.
Proof.
  intros W Hb He D I L N. destruct (pow_bits t W) as [P Q].
  destruct (C92_strided t b e inc W Hb He ltac:(lia) ltac:(unfold lo, hi, diff_t in *; cbn in *; lia)) as [H _].
  destruct (H ltac:(lia) L) as (r & R & C). exists r, (steps b inc (Z.to_nat ((e - b) / inc))), ((e - b) / inc). split; [exact R|]. split; [exact C|].
  pose proof (Z.div_pos (e - b) inc ltac:(lia) ltac:(lia)) as K. pose proof (Z.div_mod (e - b) inc ltac:(lia)). pose proof (Z.mod_pos_bound (e - b) inc ltac:(lia)).
  split; [nia|]. split; [exact K|]. unfold steps. rewrite in_map_iff. intros (i & E & Hi). apply in_seq in Hi. injection E as E. apply Z.add_reg_l, Z.mul_reg_l in E; lia.
Qed.
Print Assumptions C92_strided_last_refuted.

(** In parallel the number of iterations is not divided by the increment: numbers at and beyond the end are visited. *)
Theorem C92_strided_parallel_refuted t b inc k : wide t -> lo t <= b -> lo (diff_t t) <= b -> 1 < inc -> 0 < k -> b + inc * (inc * k) <= hi (diff_t t) ->
  inc * (inc * k) <= hi (diff_t t) ->
  exists r l x, range3 t b (b + inc * k) inc = Some r /\ par_for (fst r) (snd r) = Some l /\ length l = Z.to_nat (inc * k) /\ In (VInt x) l /\ b + inc * k <= x.
Proof.
  intros W Hb Hb' I K U V. destruct (pow_bits t W) as [P Q].
  assert (Hd : hi (diff_t t) <= hi t) by (unfold hi, diff_t; cbn; destruct (sgn t); lia).
  assert (Ld : lo (diff_t t) = - hi (diff_t t) - 1) by (unfold lo, hi, diff_t; cbn; lia).
  assert (A1 : inc <= inc * k) by nia. assert (A2 : 2 * (inc * k) <= inc * (inc * k)) by nia.
  eexists _, (steps b inc (Z.to_nat (inc * k))), (b + inc * (inc * k - 1)).
  split; [apply range3_up; unfold ok; try assumption; lia|]. cbn [fst snd].
  replace (b + inc * k - b) with (k * inc) by lia. rewrite Z.div_mul by lia.
  split; [|split; [apply steps_length|split]].
  - pose proof (stride_parallel t b inc (Z.to_nat k) (Z.to_nat (inc * k))) as S. rewrite !Z2Nat.id in S by lia.
    apply S; unfold ok; try assumption; lia.
  - unfold steps. apply in_map_iff. exists (Z.to_nat (inc * k - 1)). split; [now rewrite Z2Nat.id by lia|]. apply in_seq. lia.
  - nia.
Qed.
Print Assumptions C92_strided_parallel_refuted.

(** A descending range(b, e) counts down to e + 1 sequentially, its size is negative and in parallel nothing is visited. *)
Theorem C92_descending_refuted t b e : wide t -> lo t <= e -> lo (diff_t t) <= e -> e < b -> b <= hi (diff_t t) -> b - e <= hi (diff_t t) ->
  exists r, range2 t b e = Some r /\ completes r (steps b (-1) (Z.to_nat (b - e))) /\ range_size r = Some (e - b) /\ par_for (fst r) (snd r) = Some [].
Proof.
  intros W Hlo He L Hb D. set (d := diff_t t) in *. assert (Wd : wide d) by exact W. destruct (pow_bits t W) as [P Q].
  assert (Ld : lo d = - hi d - 1) by (unfold lo, hi, d, diff_t; cbn; lia). assert (Hh : 1 <= hi d) by lia.
  unfold range2. fold d. rewrite !(conv_id d) by (try exact Wd; lia). replace (b <? e) with false by (symmetry; apply Z.ltb_ge; lia).
  eexists. split; [apply range3_down; unfold ok; try assumption; try reflexivity; lia|]. change (- (-1)) with 1. rewrite Z.div_1_r.
  assert (Z1 : dist (Index d b (-1)) (Index d (b + -1 * (b - e)) (-1)) = Some (e - b)).
  { cbn [dist]. change (diff_t d) with d. rewrite !(conv_id d) by (try exact Wd; lia). rewrite (arith_id d) by (try exact Wd; lia). f_equal. lia. }
  split; [|split; [exact Z1|]].
  - exists (Z.to_nat (b - e)). cbn [fst snd]. rewrite <- (Z2Nat.id (b - e)) at 2 by lia. apply stride_for; unfold ok; change (diff_t d) with d; try assumption; lia.
  - unfold par_for. cbn [fst snd]. rewrite Z1. cbn [obind]. replace (Z.to_nat (e - b)) with 0%nat by lia. reflexivity.
Qed.
Print Assumptions C92_descending_refuted.

(** range(n) for an unsigned n from half the modulus on: nothing in parallel, and the sequential loop never ends normally. *)
Theorem C92_large_unsigned_refuted t n : wide t -> sgn t = false -> hi (diff_t t) < n <= hi t ->
  exists r, range1 t n = Some r /\ par_for (fst r) (snd r) = Some [] /\ never_completes r.
Proof.
  intros W S Hn. set (d := diff_t t) in *. assert (Wd : wide d) by exact W. destruct (pow_bits t W) as [P Q].
  assert (Ld : lo d = - hi d - 1) by (unfold lo, hi, d, diff_t; cbn; lia).
  assert (Ht : hi t = 2 * hi d + 1) by (unfold hi, d, diff_t; rewrite S; cbn [sgn bits]; lia). assert (Hh : 1 <= hi d) by (unfold hi, d, diff_t; cbn; lia).
  assert (Hp : 2 ^ bits t = 2 * hi d + 2) by (unfold hi, d, diff_t; cbn [sgn bits]; lia).
  assert (C : conv d n = n - 2 ^ bits t).
  { unfold conv. change (bits d) with (bits t). rewrite Z.mod_small by lia. change (sgn d) with true. cbn iota. destruct (Z.ltb_spec n (2 ^ (bits t - 1))); [|reflexivity].
    assert (hi d = 2 ^ (bits t - 1) - 1) by (unfold hi, d, diff_t; cbn [sgn bits]; lia). lia. }
  assert (R : range1 t n = Some (Index d 0 1, Index d (n - 2 ^ bits t) 1)).
  { unfold range1, range2. fold d. rewrite C, (conv_id d 0) by (try exact Wd; lia). replace (0 <? n) with true by (symmetry; apply Z.ltb_lt; lia).
    unfold range3. rewrite (arith_id d) by (try exact Wd; lia). cbn [obind]. unfold crem. cbn [Z.eqb]. rewrite andb_false_r. cbn [obind]. rewrite Z.rem_1_r.
    rewrite (arith_id d) by (try exact Wd; lia). cbn [obind]. change (diff_t d) with d. rewrite (conv_id d 1) by (try exact Wd; lia). do 3 f_equal. lia. }
  eexists. split; [exact R|]. split.
  - unfold par_for. cbn [fst snd dist]. change (diff_t d) with d. rewrite !(conv_id d) by (try exact Wd; lia). rewrite (arith_id d) by (try exact Wd; lia). cbn [obind].
    replace (Z.to_nat (n - 2 ^ bits t - 0)) with 0%nat by lia. reflexivity.
  - intros fuel l. cbn [fst snd]. apply (stuck d 1 (n - 2 ^ bits t) (fun z => 0 <= z)); [lia| |lia].
    intros z z' Hz A. cbn [adv] in A. change (diff_t d) with d in A. rewrite (conv_id d 1), (arith_id d (1 * 1)) in A by (try exact Wd; lia). cbn [obind] in A.
    destruct (arith d (z + 1 * 1)) as [y|] eqn:Y; [|discriminate]. injection A as <-. unfold arith in Y. cbn [sgn d diff_t] in Y.
    change (sgn d) with true in Y. cbn iota in Y. destruct (_ && _); [injection Y as <-; lia|discriminate].
Qed.
Print Assumptions C92_large_unsigned_refuted.

(** An increment pointing away from the end: the loop never ends normally; zero is undefined. *)
Theorem C92_wrong_way t b e inc : wide t -> sgn t = true -> lo t <= b -> e <= hi t -> e - b <= hi t -> lo t <= inc < 0 -> - inc <= e - b ->
  range3 t b e 0 = None /\ forall r, range3 t b e inc = Some r -> never_completes r.
Proof.
  intros W S Hb He D Hi L. destruct (pow_bits t W) as [P Q]. assert (E : diff_t t = t) by (unfold diff_t; destruct t; cbn in *; now rewrite S).
  assert (L0 : lo t = - hi t - 1) by (unfold lo, hi; rewrite S; lia). assert (Hh : 1 <= hi t) by (unfold hi; rewrite S; lia).
  split; [unfold range3; rewrite (arith_id t) by (try exact W; lia); reflexivity|].
  intros r R. unfold range3 in R. rewrite (arith_id t) in R by (try exact W; lia). cbn [obind] in R. unfold crem in R.
  replace (inc =? 0) with false in R by (symmetry; apply Z.eqb_neq; lia). replace (e - b =? lo t) with false in R by (symmetry; apply Z.eqb_neq; lia).
  rewrite andb_false_r in R. cbn [andb obind] in R. replace inc with (- (- inc)) in R at 1 by lia. rewrite Z.rem_opp_r in R by lia.
  rewrite Z.rem_mod_nonneg in R by lia. pose proof (Z.div_mod (e - b) (- inc) ltac:(lia)). pose proof (Z.mod_pos_bound (e - b) (- inc) ltac:(lia)).
  assert (1 <= (e - b) / - inc) by (apply Z.div_le_lower_bound; lia). assert (- inc <= - inc * ((e - b) / - inc)) by nia.
  rewrite (arith_id t) in R by (try exact W; lia). cbn [obind] in R. rewrite E, (conv_id t inc) in R by (try exact W; lia). injection R as <-.
  intros fuel l. cbn [fst snd]. apply (stuck t inc _ (fun z => z <= b)); [lia| |lia].
  intros z z' Hz A. cbn [adv] in A. rewrite E in A. rewrite (conv_id t 1), (arith_id t (inc * 1)) in A by (try exact W; lia). cbn [obind] in A.
  destruct (arith t (z + inc * 1)) as [y|] eqn:Y; [|discriminate]. injection A as <-. unfold arith in Y. rewrite S in Y. destruct (_ && _); [injection Y as <-; lia|discriminate].
Qed.
Print Assumptions C92_wrong_way.

(** enumerate(zip(range(-1, 2), array of 5), range(4)) has 3 elements. *)
Example C92_ex : let s := Enumerated [Zipped [Ints (Ity true 32) (-1) 2; Array 7 10 5]; Ints (Ity false 64) 0 4] in
  valid s /\ elements s = [VTup [VInt 0; VTup [VInt (-1); VRef 7 10]; VInt 0]; VTup [VInt 1; VTup [VInt 0; VRef 7 11]; VInt 1]; VTup [VInt 2; VTup [VInt 1; VRef 7 12]; VInt 2]].
Proof. split; [cbn; unfold wide; cbn; repeat split; try lia; discriminate|reflexivity]. Qed.
Example C92_ex_strided : option_map (fun r => seq_for 5 (fst r) (snd r)) (range3 (Ity true 32) 0 5 2) = Some (Visits [VInt 0; VInt 2]) /\
  obind (range3 (Ity true 32) 0 6 3) (fun r => par_for (fst r) (snd r)) = Some [VInt 0; VInt 3; VInt 6; VInt 9; VInt 12; VInt 15].
Proof. split; reflexivity. Qed.
