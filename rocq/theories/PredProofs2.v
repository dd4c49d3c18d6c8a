(** The error-free transforms; components that do not overlap. *)
From Coq Require Import Reals Lra Lia.
From Flocq Require Import Core Pff2Flocq Relative.
From Verif Require Import Prelude PredModel PredSpec PredProofs.
Open Scope R_scope.

Definition spl : R := bp 27 + 1.
Lemma even_sym : forall z, negb (Z.even z) = negb (negb (Z.even (- (z + 1)))).
Proof. intros z. rewrite Z.even_opp, Z.add_1_r, Z.even_succ, <- Z.negb_even, Bool.negb_involutive. reflexivity. Qed.

(** what an exact transform of [v] into a head and a tail gives *)
Definition exact_pair (v : R) (p : R * R) : Prop := fst p = rnd v /\ snd p = v - rnd v /\ is_double (snd p).

Lemma two_sum_ok a b : is_double a -> is_double b -> exact_pair (a + b) (two_sum dbl a b).
Proof.
  intros Ha Hb. pose proof (TwoSum_correct (-1074) 53 (fun z => negb (Z.even z)) ltac:(lia) ltac:(lia) even_sym a b Ha Hb) as H.
  unfold exact_pair, two_sum, two_sum_tail. cbn [fadd fsub dbl fst snd].
  split; [reflexivity|]. split; [|apply fmt_rnd]. fold rnd in H. unfold rnd in *. lra.
Qed.
Lemma two_diff_ok a b : is_double a -> is_double b -> exact_pair (a - b) (two_diff dbl a b).
Proof.
  intros Ha Hb. destruct (two_sum_ok a (- b) Ha (fmt_opp _ Hb)) as (_ & H & _).
  unfold exact_pair, two_diff, two_diff_tail, two_sum, two_sum_tail in *. cbn [fadd fsub dbl fst snd] in *.
  split; [reflexivity|]. split; [|apply fmt_rnd].
  change (a + - b) with (a - b) in H. rewrite <- H.
  replace (rnd (a - rnd (a - b))) with (- rnd (rnd (a - b) - a)) by (rewrite <- rnd_opp; f_equal; lra).
  f_equal. f_equal; f_equal; try lra; f_equal; try lra; f_equal; lra.
Qed.
Lemma two_diff_tail_ok a b : is_double a -> is_double b ->
  two_diff_tail dbl a b (rnd (a - b)) = (a - b) - rnd (a - b) /\ is_double ((a - b) - rnd (a - b)).
Proof. intros Ha Hb. destruct (two_diff_ok a b Ha Hb) as (_ & H & F). cbn [snd two_diff fsub dbl] in *. rewrite <- H at 2. auto. Qed.
Lemma fast_two_sum_ok a b : is_double a -> is_double b -> Rabs b <= Rabs a \/ a = 0 -> exact_pair (a + b) (fast_two_sum dbl a b).
Proof.
  intros Ha Hb Hc. unfold exact_pair, fast_two_sum, fast_two_sum_tail. cbn [fadd fsub dbl fst snd].
  split; [reflexivity|]. split; [|apply fmt_rnd]. destruct Hc as [Hc| ->].
  - pose proof (Fast2Sum_correct (-1074) 53 (fun z => negb (Z.even z)) ltac:(lia) ltac:(lia) even_sym a b Ha Hb Hc) as H.
    fold rnd in H.
    replace (rnd (b - rnd (rnd (a + b) - a))) with (rnd (b + rnd (a - rnd (a + b)))); [unfold rnd in *; lra|].
    f_equal. replace (rnd (a - rnd (a + b))) with (- rnd (rnd (a + b) - a)) by (rewrite <- rnd_opp; f_equal; lra). lra.
  - rewrite Rplus_0_l, (rnd_id b) by assumption. rewrite Rminus_0_r, (rnd_id b) by assumption.
    unfold Rminus. rewrite Rplus_opp_r, rnd_0. reflexivity.
Qed.
Lemma two_product_ok a b : is_double a -> is_double b -> a * b = 0 \/ bp (-969) <= Rabs (a * b) ->
  exact_pair (a * b) (two_product dbl spl a b).
Proof.
  intros Ha Hb Hc. unfold exact_pair, two_product, two_product_tail, split. cbn [fadd fsub fmul dbl fst snd].
  split; [reflexivity|]. split; [|apply fmt_rnd].
  destruct (Dekker radix2 (-1074) 53 (fun z => negb (Z.even z)) ltac:(lia) ltac:(lia) b a Hb Ha (or_introl eq_refl)) as [H _].
  rewrite (Rmult_comm b a) in H. specialize (H Hc).
  change (53 - Z.div2 53)%Z with 27%Z in H. fold spl in H. fold rnd in H. change (round radix2 fexp64 ZnearestE) with rnd in H.
  match type of H with _ = _ + ?t => replace (a * b - rnd (a * b)) with t by lra end. clear H.
  rewrite !(Rmult_comm _ spl).
  set (ca := rnd (spl * a)). set (cb := rnd (spl * b)).
  assert (Ea : rnd (rnd (a - ca) + ca) = rnd (ca - rnd (ca - a))).
  { replace (rnd (a - ca)) with (- rnd (ca - a)) by (rewrite <- rnd_opp; f_equal; lra). f_equal; lra. }
  assert (Eb : rnd (rnd (b - cb) + cb) = rnd (cb - rnd (cb - b))).
  { replace (rnd (b - cb)) with (- rnd (cb - b)) by (rewrite <- rnd_opp; f_equal; lra). f_equal; lra. }
  rewrite Ea, Eb. set (ha := rnd (ca - rnd (ca - a))). set (hb := rnd (cb - rnd (cb - b))).
  set (la := rnd (a - ha)). set (lb := rnd (b - hb)).
  rewrite (Rmult_comm ha hb), (Rmult_comm la hb), (Rmult_comm ha lb), (Rmult_comm la lb).
  set (p1 := rnd (hb * ha)). set (p2 := rnd (hb * la)). set (p3 := rnd (lb * ha)). set (p4 := rnd (lb * la)). set (r := rnd (a * b)).
  replace (rnd (- r + p1)) with (- rnd (r - p1)) by (rewrite <- rnd_opp; f_equal; lra).
  replace (rnd (- rnd (r - p1) + p2)) with (- rnd (rnd (r - p1) - p2)) by (rewrite <- rnd_opp; f_equal; lra).
  replace (rnd (- rnd (rnd (r - p1) - p2) + p3)) with (- rnd (rnd (rnd (r - p1) - p2) - p3)) by (rewrite <- rnd_opp; f_equal; lra).
  f_equal. lra.
Qed.

(** ** separated numbers: every bit of x lies two or more places below the lowest bit of y *)
Definition sep (x y : R) : Prop := x = 0 \/ exists k, Rabs x < bp k /\ multiple (k + 1) y.
Lemma sep_0 x : sep x 0. 
Proof.
  destruct (Req_dec x 0) as [E|E]; [left; exact E|]. right. exists (mag radix2 x). split; [|apply mul_0].
  destruct (mag radix2 x) as [e He]. cbn. apply He, E.
Qed.
Lemma sep_le x x' y : Rabs x' <= Rabs x -> sep x y -> sep x' y.
Proof.
  intros Hx [->|(k & H1 & H2)].
  - left. rewrite Rabs_R0 in Hx. unfold Rabs in Hx. destruct (Rcase_abs x'); lra.
  - right. exists k. split; [lra|exact H2].
Qed.
Lemma sep_add x y z : sep x y -> sep x z -> sep x (y + z).
Proof.
  intros [->|(k & H1 & H2)]; [left; reflexivity|]. intros [->|(l & H3 & H4)]; [left; reflexivity|].
  right. exists (Z.min k l). split.
  - destruct (Z.min_spec k l) as [[_ ->]|[_ ->]]; assumption.
  - apply mul_add; [apply mul_weaken with (2 := H2)|apply mul_weaken with (2 := H4)]; lia.
Qed.
Lemma sep_opp x y : sep x y -> sep x (- y).
Proof. intros [->|(k & H1 & H2)]; [left; reflexivity|]. right. exists k. split; [exact H1|apply mul_opp, H2]. Qed.
Lemma sep_sub x y z : sep x y -> sep x z -> sep x (y - z).
Proof. intros H1 H2. apply sep_add; [exact H1|apply sep_opp, H2]. Qed.
Lemma sep_rnd x y : sep x y -> sep x (rnd y).
Proof. intros [->|(k & H1 & H2)]; [left; reflexivity|]. right. exists k. split; [exact H1|apply rnd_mul, H2]. Qed.
Lemma ZnearestE_tie r : Rabs (r - IZR (ZnearestE r)) = / 2 -> Z.even (ZnearestE r) = true.
Proof.
  intros H. pose proof (Zfloor_lb r) as Hl. pose proof (Zfloor_ub r) as Hu.
  unfold Znearest in *. destruct (Rcompare_spec (r - IZR (Zfloor r)) (/ 2)) as [C|C|C].
  - exfalso. rewrite Rabs_pos_eq in H by lra. lra.
  - destruct (Z.even (Zfloor r)) eqn:E; cbn in *; [exact E|].
    assert (Hc : Zceil r = (Zfloor r + 1)%Z) by (apply Zceil_floor_neq; intros X; rewrite X in C; lra).
    rewrite Hc, Z.add_1_r, Z.even_succ, <- Z.negb_even, E. reflexivity.
  - exfalso. assert (Hc : Zceil r = (Zfloor r + 1)%Z) by (apply Zceil_floor_neq; intros X; rewrite X in C; lra).
    rewrite Hc, plus_IZR in H. rewrite Rabs_left1 in H by lra. lra.
Qed.
Lemma sep_round x : sep (x - rnd x) (rnd x).
Proof.
  set (c := cexp radix2 fexp64 x). set (r := scaled_mantissa radix2 fexp64 x).
  assert (Hx : x = r * bp c).
  { unfold r, c. symmetry. apply scaled_mantissa_mult_bpow. }
  assert (Hr : rnd x = IZR (ZnearestE r) * bp c) by reflexivity.
  assert (Hd : x - rnd x = (r - IZR (ZnearestE r)) * bp c) by (rewrite Hr, Hx at 1; ring).
  assert (Hh : Rabs (r - IZR (ZnearestE r)) <= / 2) by apply Znearest_half.
  pose proof (bp_pos c) as Hb. right.
  assert (Hp : bp (c - 1) = / 2 * bp c).
  { unfold Z.sub. rewrite bpow_plus. cbn. lra. }
  destruct (Req_dec (Rabs (r - IZR (ZnearestE r))) (/ 2)) as [T|T].
  - exists c. split.
    + rewrite Hd, Rabs_mult, T, (Rabs_pos_eq (bp c)) by lra. lra.
    + pose proof (ZnearestE_tie r T) as E. apply Z.even_spec in E. destruct E as [m E].
      rewrite Hr, E, mult_IZR. exists m. rewrite (Z.add_comm c 1), bpow_plus. cbn. ring.
  - exists (c - 1)%Z. split.
    + rewrite Hd, Rabs_mult, (Rabs_pos_eq (bp c)), Hp by lra. apply Rmult_lt_compat_r; lra.
    + replace (c - 1 + 1)%Z with c by lia. rewrite Hr. exists (ZnearestE r). reflexivity.
Qed.
Lemma err_le_r a b : is_double a -> Rabs ((a + b) - rnd (a + b)) <= Rabs b.
Proof.
  intros Ha. pose proof (rnd_nearest (a + b) a Ha) as H.
  rewrite <- Rabs_Ropp in H. replace (- (rnd (a + b) - (a + b))) with ((a + b) - rnd (a + b)) in H by lra.
  replace (a - (a + b)) with (- b) in H by lra. rewrite Rabs_Ropp in H. exact H.
Qed.
Lemma err_le_l a b : is_double b -> Rabs ((a + b) - rnd (a + b)) <= Rabs a.
Proof. rewrite Rplus_comm. apply err_le_r. Qed.

(** nonadjacent expansions, components in increasing order *)
Fixpoint nonadj (l : list R) : Prop :=
  match l with [] => True | x :: r => Forall (sep x) r /\ nonadj r end.

Lemma two_two_diff_ok a1 a0 b1 b0 : is_double a1 -> is_double a0 -> is_double b1 -> is_double b0 -> sep a0 a1 -> sep b0 b1 ->
  exists x0 x1 x2 x3, two_two_diff dbl a1 a0 b1 b0 = [x0; x1; x2; x3] /\ Forall is_double [x0; x1; x2; x3] /\
    x0 + x1 + x2 + x3 = (a1 + a0) - (b1 + b0) /\ nonadj [x0; x1; x2; x3] /\ Rabs x2 <= u * Rabs x3.
Proof.
  intros Fa1 Fa0 Fb1 Fb0 Sa Sb. unfold two_two_diff, two_one_diff.
  destruct (two_diff_ok a0 b0 Fa0 Fb0) as (E1 & E2 & F1). destruct (two_diff dbl a0 b0) as [i x0]. cbn [fst snd] in *.
  assert (Fi : is_double i) by (rewrite E1; apply fmt_rnd).
  destruct (two_sum_ok a1 i Fa1 Fi) as (E3 & E4 & F2). destruct (two_sum dbl a1 i) as [j z]. cbn [fst snd] in *.
  assert (Fj : is_double j) by (rewrite E3; apply fmt_rnd).
  destruct (two_diff_ok z b1 F2 Fb1) as (E5 & E6 & F3). destruct (two_diff dbl z b1) as [i' x1]. cbn [fst snd] in *.
  assert (Fi' : is_double i') by (rewrite E5; apply fmt_rnd).
  destruct (two_sum_ok j i' Fj Fi') as (E7 & E8 & F4). destruct (two_sum dbl j i') as [x3 x2]. cbn [fst snd] in *.
  assert (Fx3 : is_double x3) by (rewrite E7; apply fmt_rnd).
  exists x0, x1, x2, x3. split; [reflexivity|]. split; [repeat (constructor; [assumption|]); constructor|].
  split; [lra|].
  assert (Z0 : forall x y, is_double x -> is_double y -> Rabs ((x - y) - rnd (x - y)) <= Rabs y).
  { intros x y Hx Hy. unfold Rminus at 2 3. rewrite <- (Rabs_Ropp y). apply err_le_r. exact Hx. }
  assert (S1 : sep x0 i) by (rewrite E1, E2; apply sep_round).
  assert (S2 : sep x0 a1). { apply sep_le with a0; [|exact Sa]. rewrite E2. unfold Rminus at 2 3. apply err_le_l. apply fmt_opp, Fb0. }
  assert (S3 : sep x0 b1). { apply sep_le with b0; [|exact Sb]. rewrite E2. apply Z0; assumption. }
  assert (S4 : sep x0 j). { rewrite E3. apply sep_rnd, sep_add; assumption. }
  assert (S5 : sep x0 z). { rewrite E4. apply sep_sub; [apply sep_add; assumption|rewrite <- E3; exact S4]. }
  assert (S6 : sep x0 i'). { rewrite E5. apply sep_rnd, sep_sub; assumption. }
  assert (S7 : sep x0 x1). { rewrite E6. apply sep_sub; [apply sep_sub; assumption|rewrite <- E5; exact S6]. }
  assert (S8 : sep x0 x3). { rewrite E7. apply sep_rnd, sep_add; assumption. }
  assert (S9 : sep x0 x2). { rewrite E8. apply sep_sub; [apply sep_add; assumption|rewrite <- E7; exact S8]. }
  assert (T1 : sep z j) by (rewrite E3, E4; apply sep_round).
  assert (T2 : sep x1 i') by (rewrite E5, E6; apply sep_round).
  assert (T3 : sep x1 j). { apply sep_le with z; [|exact T1]. rewrite E6. unfold Rminus at 2 3. apply err_le_l. apply fmt_opp, Fb1. }
  assert (T4 : sep x1 x3). { rewrite E7. apply sep_rnd, sep_add; assumption. }
  assert (T5 : sep x1 x2). { rewrite E8. apply sep_sub; [apply sep_add; assumption|rewrite <- E7; exact T4]. }
  assert (T6 : sep x2 x3) by (rewrite E7, E8; apply sep_round).
  split; [cbn [nonadj]; repeat (assumption || exact I || apply conj || apply Forall_cons || apply Forall_nil)|].
  rewrite E7, E8. rewrite <- Rabs_Ropp. replace (- (j + i' - rnd (j + i'))) with (rnd (j + i') - (j + i')) by lra.
  apply rnd_err. apply mul_add; apply fmt_mul; assumption.
Qed.
Lemma two_two_diff_mul k a1 a0 b1 b0 : is_double a1 -> is_double a0 -> is_double b1 -> is_double b0 ->
  multiple k a1 -> multiple k a0 -> multiple k b1 -> multiple k b0 -> Forall (multiple k) (two_two_diff dbl a1 a0 b1 b0).
Proof.
  intros Fa1 Fa0 Fb1 Fb0 Ma1 Ma0 Mb1 Mb0. unfold two_two_diff, two_one_diff.
  destruct (two_diff_ok a0 b0 Fa0 Fb0) as (E1 & E2 & F1). destruct (two_diff dbl a0 b0) as [i x0]. cbn [fst snd] in *.
  assert (Fi : is_double i) by (rewrite E1; apply fmt_rnd).
  destruct (two_sum_ok a1 i Fa1 Fi) as (E3 & E4 & F2). destruct (two_sum dbl a1 i) as [j z]. cbn [fst snd] in *.
  assert (Fj : is_double j) by (rewrite E3; apply fmt_rnd).
  destruct (two_diff_ok z b1 F2 Fb1) as (E5 & E6 & F3). destruct (two_diff dbl z b1) as [i' x1]. cbn [fst snd] in *.
  assert (Fi' : is_double i') by (rewrite E5; apply fmt_rnd).
  destruct (two_sum_ok j i' Fj Fi') as (E7 & E8 & F4). destruct (two_sum dbl j i') as [x3 x2]. cbn [fst snd] in *.
  assert (Mi : multiple k i) by (rewrite E1; apply rnd_mul, mul_sub; assumption).
  assert (M0 : multiple k x0) by (rewrite E2, <- E1; apply mul_sub; [apply mul_sub|]; assumption).
  assert (Mj : multiple k j) by (rewrite E3; apply rnd_mul, mul_add; assumption).
  assert (Mz : multiple k z) by (rewrite E4, <- E3; apply mul_sub; [apply mul_add|]; assumption).
  assert (Mi' : multiple k i') by (rewrite E5; apply rnd_mul, mul_sub; assumption).
  assert (M1 : multiple k x1) by (rewrite E6, <- E5; apply mul_sub; [apply mul_sub|]; assumption).
  assert (M3 : multiple k x3) by (rewrite E7; apply rnd_mul, mul_add; assumption).
  assert (M2 : multiple k x2) by (rewrite E8, <- E7; apply mul_sub; [apply mul_add|]; assumption).
  repeat (apply Forall_cons; [assumption|]). apply Forall_nil.
Qed.
