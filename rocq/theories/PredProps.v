(** C79: the adaptive orientation predicates return the sign of the determinant. *)
From Coq Require Import Reals Lra Lia.
From Flocq Require Import Core.
From Verif Require Import Prelude PredModel PredSpec PredProofs PredProofs2 PredProofs4 PredProofs5 PredProofs6 PredProofs7 PredProofs8 PredProofs9 PredProofs10 PredProofs11 PredProofs12.
Open Scope R_scope.

Definition coord2 (k : Z) (p : @pt2 R) : Prop := coord k (p0 p) /\ coord k (p1 p).
Definition coord3 (k : Z) (p : @pt3 R) : Prop := coord k (q0 p) /\ coord k (q1 p) /\ coord k (q2 p).
Definition area (a b c : @pt2 R) : R := area2 (p0 a) (p1 a) (p0 b) (p1 b) (p0 c) (p1 c).

(** init_exact stops, and finds half the distance from 1 to the next number, and 2^27 + 1 *)
Theorem C79_init : forall fuel, (53 <= fuel)%nat -> init_exact dbl fuel = Some (bpow radix2 (-53), bpow radix2 27 + 1).
Proof. exact init_exact_ok. Qed.
Print Assumptions C79_init.

Lemma init_unique fuel : forall e s, init_exact dbl fuel = Some (e, s) -> e = u /\ s = spl.
Proof.
  intros e s H. assert (M : forall n m c b x y r, init_loop dbl n c b x y = Some r -> init_loop dbl (n + m) c b x y = Some r).
  { induction n as [|n IH]; intros m c b x y r E; [discriminate E|]. cbn [Nat.add init_loop] in *. cbv zeta in *.
    destruct (negb _ && negb _); [apply IH, E|exact E]. }
  apply (M _ 53%nat) in H. change (init_exact dbl (fuel + 53) = Some (e, s)) in H. rewrite (init_exact_ok (fuel + 53)) in H by lia.
  injection H as <- <-. auto.
Qed.

(** orient2d has the sign of twice the signed area, whichever stage returned; and if it was the last stage, the
    components it computed add up to that area exactly *)
Theorem C79_orient2d : forall fuel epsilon splitter junk a b c,
  init_exact dbl fuel = Some (epsilon, splitter) -> coord2 (-450) a -> coord2 (-450) b -> coord2 (-450) c ->
  same_sign (value dbl (orient2d dbl epsilon splitter junk a b c)) (area a b c) /\
  (forall D, orient2d dbl epsilon splitter junk a b c = Exact D -> total D = area a b c /\ (length D <= 16)%nat).
Proof.
  intros fuel eps sp junk a b c HI A B C. destruct (init_unique fuel eps sp HI) as [-> ->]. split.
  - apply (orient2d_all a b c A B C).
  - intros D E. destruct (orient2d_exact a b c A B C junk D E) as (T & _ & _ & L & _). auto.
Qed.
Print Assumptions C79_orient2d.
(** the coordinates covered: all doubles that are zero or at least 2^-397 in magnitude *)
Theorem C79_covers : forall x, is_double x -> x = 0 \/ bpow radix2 (-397) <= Rabs x -> coord (-450) x.
Proof. exact double_coord. Qed.
Print Assumptions C79_covers.
(** so the hypotheses of C79_orient2d are met by ordinary points *)
Example C79_covers_ex : coord (-450) 3 /\ coord (-450) (bpow radix2 (-300)).
Proof.
  split; (split; [|first [exists (3 * 2 ^ 450)%Z; rewrite mult_IZR; change 2%Z with (radix_val radix2); rewrite IZR_Zpower by lia; rewrite Rmult_assoc, <- bpow_plus; cbn; lra
                         |apply mul_weaken with (-300)%Z; [lia|apply mul_bp]]]).
  - apply fmt_of_mul with 0%Z; [lia|exists 3%Z; cbn; lra|rewrite Rabs_pos_eq by lra; change (0 + 53)%Z with 53%Z; apply Rle_trans with (bpow radix2 2); [cbn; lra|apply bpow_le; lia]].
  - apply generic_format_bpow. unfold FLT_exp. lia.
Qed.

(** what callers rely on: exchanging two points negates the sign, rotating the points keeps it, and the
    result is zero exactly for collinear points *)
Theorem C79_consistent : forall junk a b c, coord2 (-450) a -> coord2 (-450) b -> coord2 (-450) c ->
  let o x y z := value dbl (orient2d dbl (bpow radix2 (-53)) (bpow radix2 27 + 1) junk x y z) in
  same_sign (o b a c) (- o a b c) /\ same_sign (o b c a) (o a b c) /\ (o a b c = 0 <-> area a b c = 0).
Proof.
  intros junk a b c A B C. cbv zeta.
  pose proof (orient2d_all a b c A B C junk) as [H1 H2]. pose proof (orient2d_all b a c B A C junk) as [H3 H4]. pose proof (orient2d_all b c a B C A junk) as [H5 H6].
  change (bpow radix2 (-53)) with u. change (bpow radix2 27 + 1) with spl. 
  set (o1 := value dbl (orient2d dbl u spl junk a b c)) in *. set (o2 := value dbl (orient2d dbl u spl junk b a c)) in *.
  set (o3 := value dbl (orient2d dbl u spl junk b c a)) in *. clearbody o1 o2 o3. change (area a b c) with (garea a b c).
  assert (X : garea b a c = - garea a b c) by (unfold garea, area2; ring). assert (Y : garea b c a = garea a b c) by (unfold garea, area2; ring).
  rewrite X in *. rewrite Y in *. set (g := garea a b c) in *. clearbody g. unfold same_sign.
  destruct (Rtotal_order g 0) as [G|[G|G]], (Rtotal_order o1 0) as [O|[O|O]], (Rtotal_order o2 0) as [P|[P|P]], (Rtotal_order o3 0) as [Q|[Q|Q]];
    try (exfalso; tauto); repeat split; intros; try lra; try tauto;
    exfalso; try (assert (0 < 0) by tauto; lra); intuition lra.
Qed.
Print Assumptions C79_consistent.

(** the first stage of orient3d; the later stages (orient3dadapt) are not modelled *)
Theorem C79_orient3d_partial : forall fuel epsilon splitter a b c d r,
  init_exact dbl fuel = Some (epsilon, splitter) -> coord3 (-320) a -> coord3 (-320) b -> coord3 (-320) c -> coord3 (-320) d ->
  orient3d_filter dbl epsilon a b c d = Some r ->
  same_sign r (volume6 (q0 a) (q1 a) (q2 a) (q0 b) (q1 b) (q2 b) (q0 c) (q1 c) (q2 c) (q0 d) (q1 d) (q2 d)).
Proof.
  intros fuel eps sp a b c d r HI A B C D. destruct (init_unique fuel eps sp HI) as [-> ->]. apply orient3d_filter_sign; assumption.
Qed.
Print Assumptions C79_orient3d_partial.

Lemma coord_int k n : (-1074 <= k <= 0)%Z -> (Z.abs n <= 2 ^ 53)%Z -> coord k (IZR n).
Proof.
  intros Hk Hn. split.
  - rewrite <- (rint n Hn). apply fmt_rnd.
  - apply mul_weaken with 0%Z; [lia|]. exists n. cbn. lra.
Qed.
Definition tet (x y z : Z) : @pt3 R := mkP3 (IZR x) (IZR y) (IZR z).
Example C79_orient3d_ex : coord3 (-320) (tet 1 0 0) /\ coord3 (-320) (tet 0 1 0) /\ coord3 (-320) (tet 0 0 1) /\ coord3 (-320) (tet 0 0 0) /\
  orient3d_filter dbl (bpow radix2 (-53)) (tet 1 0 0) (tet 0 1 0) (tet 0 0 1) (tet 0 0 0) = Some 1.
Proof.
  split; [|split; [|split; [|split]]]; try (split; [|split]; apply coord_int; lia).
  change (bpow radix2 (-53)) with u. unfold orient3d_filter. cbv zeta. rewrite !absolute_abs, o3dA_val. cbn [tet q0 q1 q2 dbl fadd fsub fmul fopp].
  assert (R1 : rnd 1 = 1) by (apply (rint 1); lia).
  repeat (rewrite ?Rminus_0_r, ?Rmult_0_l, ?Rmult_0_r, ?Rplus_0_l, ?Rplus_0_r, ?Rmult_1_l, ?Rmult_1_r, ?Rabs_R0, ?Rabs_R1, ?rnd_0, ?R1).
  assert (L : rnd (7 * u + 56 * u * u) < 1).
  { pose proof (rnd_err' (7 * u + 56 * u * u)) as E. specialize (E ltac:(apply mul_weaken with (2 := o3dA_mul); lia)).
    apply Rabs_le_inv in E. assert (P : 0 <= rnd (7 * u + 56 * u * u)) by (rewrite <- rnd_0; apply rnd_le; rewrite u_val; lra).
    rewrite (Rabs_pos_eq _ P) in E. rewrite u_val in *. lra. }
  rewrite (proj2 (fgt_true 1 _) L). reflexivity.
Qed.

(** the error-free transforms: the head is the rounded result, and nothing is lost *)
Theorem C79_two_sum : forall a b, is_double a -> is_double b ->
  let '(x, y) := two_sum dbl a b in x = rnd (a + b) /\ x + y = a + b /\ is_double y.
Proof.
  intros a b A B. pose proof (two_sum_ok a b A B) as (H1 & H2 & H3). destruct (two_sum dbl a b) as [x y]. cbn [fst snd] in *. repeat split; try assumption. lra.
Qed.
Print Assumptions C79_two_sum.
Theorem C79_two_product : forall a b, is_double a -> is_double b -> a * b = 0 \/ bpow radix2 (-969) <= Rabs (a * b) ->
  let '(x, y) := two_product dbl (bpow radix2 27 + 1) a b in x = rnd (a * b) /\ x + y = a * b /\ is_double y.
Proof.
  intros a b A B N. pose proof (two_product_ok a b A B N) as (H1 & H2 & H3). change (bpow radix2 27 + 1) with spl. destruct (two_product dbl spl a b) as [x y]. cbn [fst snd] in *. repeat split; try assumption. lra.
Qed.
Print Assumptions C79_two_product.

(** the sum of two expansions is exact, without zero components (unless it is 0), and its last component has its sign *)
Theorem C79_expansion_sum : forall e f junk, Forall (coord (-960)) e -> Forall (coord (-960)) f -> ascending 1 e -> ascending 1 f ->
  (1 <= length e <= 16)%nat -> (1 <= length f <= 16)%nat ->
  let h := fast_expansion_sum dbl e f junk in
  total h = total e + total f /\ Forall is_double h /\ ascending 0 h /\ (1 <= length h <= length e + length f)%nat /\
  same_sign (last h 0) (total h).
Proof.
  intros e f junk Ge Gf Ae Af Le Lf. cbv zeta.
  assert (NE : forall l : list R, (1 <= length l)%nat -> l <> []) by (intros [|x l] H; [cbn in H; lia|discriminate]).
  destruct (merge_ok e f junk Ge Gf (nonadj_wfwd _ (ascending_nonadj _ Ae)) (ascending_nonadj _ Af)) as (T & G & W & N & L & S); try lia; try (apply NE; lia).
  split; [exact T|]. split; [eapply Forall_impl; [|exact G]; intros x [H _]; exact H|]. split; [apply wfwd_ascending, W|].
  split; [|exact S]. split; [|exact L]. destruct (fast_expansion_sum dbl e f junk); [contradiction|cbn; lia].
Qed.
Print Assumptions C79_expansion_sum.
Lemma below_ex : below 1 (/ 2) (IZR (2 ^ 52 + 2 ^ 12)).
Proof. right. exists 0%Z. split; [rewrite Rabs_pos_eq; cbn; lra|]. exists (2 ^ 51 + 2 ^ 11)%Z. cbn. lra. Qed.
Lemma asc1 x y : below 1 x y -> ascending 1 [x; y].
Proof. intros H [|[|i]] [|[|j]] L; cbn in L |- *; try lia. exact H. Qed.
Lemma asc0 g x : ascending g [x]. Proof. intros i j L. cbn in L. lia. Qed.
(** the numbers used next meet the hypotheses *)
Example C79_expansion_sum_ex : ascending 1 [/ 2; IZR (2 ^ 52 + 2 ^ 12)] /\ ascending 1 [- (IZR (2 ^ 52 + 2 ^ 12) + 3)] /\
  forall junk, fast_expansion_sum dbl [/ 2; IZR (2 ^ 52 + 2 ^ 12)] [- (IZR (2 ^ 52 + 2 ^ 12) + 3)] junk = [/ 2; -3].
Proof. split; [apply asc1, below_ex|split; [apply asc0|exact counter_value]]. Qed.

(** REFUTED: the comment at lines 391-393: the sum of strongly nonoverlapping expansions need not be strongly nonoverlapping *)
Theorem C79_strongly_nonoverlapping_refuted : exists e f, strongly_nonoverlapping e /\ strongly_nonoverlapping f /\
  forall junk, ~ strongly_nonoverlapping (fast_expansion_sum dbl e f junk).
Proof.
  exists [/ 2; IZR (2 ^ 52 + 2 ^ 12)], [- (IZR (2 ^ 52 + 2 ^ 12) + 3)]. split; [|split].
  - intros [|[|i]] [|[|j]] L; cbn [length] in L; try lia. cbn [nth]. split; [|left; exact below_ex].
    destruct below_ex as [H|(k & K1 & K2)]; [left; exact H|right]. exists k. split; [exact K1|]. apply mul_weaken with (2 := K2). lia.
  - intros i j L. cbn in L. lia.
  - intros junk. rewrite counter_value. exact counter_not.
Qed.
Print Assumptions C79_strongly_nonoverlapping_refuted.

(** fast_expansion_sum_zeroelim reads beyond the end of e or f on every call, for any arithmetic ... *)
Theorem C79_reads_past_end_refuted : forall {T} (o : fops T) e f junk, e <> [] -> f <> [] ->
  bad (fast_expansion_sum_state o e f junk) = true.
Proof. intros T o e f junk. apply sum_bad. Qed.
Print Assumptions C79_reads_past_end_refuted.
(** ... but what it finds there has no influence on the result *)
Theorem C79_junk_unused : forall {T} (o : fops T) epsilon splitter junk junk' a b c,
  orient2d o epsilon splitter junk a b c = orient2d o epsilon splitter junk' a b c.
Proof. intros. apply orient_junk. Qed.
Print Assumptions C79_junk_unused.

(** REFUTED for all doubles: products of tiny coordinates underflow, and a proper triangle is reported degenerate *)
Theorem C79_underflow_refuted : exists a b c : @pt2 R,
  (forall p, p = a \/ p = b \/ p = c -> is_double (p0 p) /\ is_double (p1 p)) /\ 0 < area a b c /\
  forall junk, value dbl (orient2d dbl (bpow radix2 (-53)) (bpow radix2 27 + 1) junk a b c) = 0.
Proof.
  set (t := bpow radix2 (-600)). exists (mkP2 t 0), (mkP2 0 t), (mkP2 0 0).
  assert (F : is_double t) by (apply generic_format_bpow; unfold FLT_exp; lia).
  split; [|split].
  - intros p [->|[->| ->]]; cbn; split; try exact F; apply fmt_0.
  - unfold area, area2. cbn [p0 p1]. pose proof (bp_pos (-600)). fold t in H. nra.
  - intros junk. unfold orient2d. cbn [dbl fsub fmul fopp lit p0 p1]. rewrite !Rminus_0_r, rnd_0, (rnd_id t F), !Rmult_0_l, rnd_0.
    assert (Z : rnd (t * t) = 0).
    { apply rnd_tiny. unfold t. rewrite <- bpow_plus, Rabs_pos_eq by apply bpow_ge_0. apply bpow_lt. lia. }
    rewrite Z. cbn [fgt dbl]. rewrite (Rlt_bool_false 0 0) by lra. cbn. rewrite Rminus_0_r. apply rnd_0.
Qed.
Print Assumptions C79_underflow_refuted.
