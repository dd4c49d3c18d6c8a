(** C93: the linear congruential generator has full period, its output is equidistributed. *)
From Coq Require Import ZArith List Lia Znumtheory Zpow_facts Bool.
Import ListNotations.
From Verif Require Import PcgModel PcgSpec.
Open Scope Z_scope.

Section Lcg.
Variables (a c : Z).
Hypothesis (Ha : a mod 4 = 1) (Hc : Z.odd c = true).
Fixpoint lin (k : nat) (s : Z) : Z := match k with O => s | S j => a * lin j s + c end.
Fixpoint geo (k : nat) : Z := match k with O => 0 | S j => 1 + a * geo j end.
Lemma lin_geo k s : lin k s - s = geo k * ((a - 1) * s + c).
Proof. induction k; cbn [lin geo]; [lia|]. replace (a * lin k s + c - s) with (a * (lin k s - s) + ((a - 1) * s + c)) by lia. rewrite IHk. lia. Qed.
Lemma lin_add j k s : lin (j + k) s = lin j (lin k s).
Proof. induction j; cbn; [reflexivity|now rewrite IHj]. Qed.
Lemma geo_add j k : geo (j + k) = geo j + a ^ Z.of_nat j * geo k.
Proof. induction j; [cbn [geo Nat.add]; rewrite Z.pow_0_r; lia|]. cbn [geo Nat.add]. rewrite IHj, Nat2Z.inj_succ, Z.pow_succ_r by lia. lia. Qed.
Lemma a_odd : exists q, a = 1 + 4 * q.
Proof. exists (a / 4). pose proof (Z.div_mod a 4). lia. Qed.
Lemma pow_mod4 j : exists q, a ^ Z.of_nat j = 1 + 4 * q.
Proof.
  destruct a_odd as [q E]. induction j; [exists 0; reflexivity|]. destruct IHj as [p P]. rewrite Nat2Z.inj_succ, Z.pow_succ_r by lia. rewrite P, E. exists (q + p + 4 * q * p). lia.
Qed.
Lemma geo_parity k : Z.odd (geo k) = Nat.odd k.
Proof.
  destruct a_odd as [q E]. induction k; [reflexivity|]. cbn [geo]. rewrite Z.odd_add, Z.odd_mul, IHk, E, Z.odd_add, Z.odd_mul. cbn [Z.odd]. rewrite Nat.odd_succ, <- Nat.negb_odd. now destruct (Nat.odd k).
Qed.
Lemma geo_double k : geo (k + k) = geo k * (2 * (1 + 2 * (a ^ Z.of_nat k / 4))).
Proof. rewrite geo_add. destruct (pow_mod4 k) as [q ->]. replace ((1 + 4 * q) / 4) with q by (symmetry; rewrite (Z.mul_comm 4), Z.div_add by lia; reflexivity). lia. Qed.
Lemma odd_coprime e m : 0 <= e -> Z.odd m = true -> rel_prime (2 ^ e) m.
Proof.
  intros He Hm. apply rel_prime_sym. apply rel_prime_Zpower_r; [exact He|]. apply rel_prime_sym. apply prime_rel_prime; [exact prime_2|].
  intros [q ->]. rewrite Z.odd_mul, andb_false_r in Hm. discriminate.
Qed.
Lemma divide_odd e m z : 0 <= e -> Z.odd m = true -> ((2 ^ e | z * m) <-> (2 ^ e | z)).
Proof. intros He Hm. split; [intros D; apply (Gauss _ m); [now rewrite Z.mul_comm|apply odd_coprime; assumption]|intros [q ->]; exists (q * m); lia]. Qed.
Lemma geo_divides e : forall k, (2 ^ Z.of_nat e | geo k) <-> (2 ^ Z.of_nat e | Z.of_nat k).
Proof.
  induction e as [|e IH]; intros k; [rewrite Z.pow_0_r; split; intros; apply Z.divide_1_l|].
  rewrite Nat2Z.inj_succ, Z.pow_succ_r by lia.
  destruct (Nat.Even_or_Odd k) as [[j ->]|O].
  - replace (2 * j)%nat with (j + j)%nat by lia. rewrite geo_double.
    replace (geo j * (2 * (1 + 2 * (a ^ Z.of_nat j / 4)))) with (2 * (geo j * (1 + 2 * (a ^ Z.of_nat j / 4)))) by lia.
    replace (Z.of_nat (j + j)) with (2 * Z.of_nat j) by lia.
    assert (M : forall x y, (2 * x | 2 * y) <-> (x | y)).
    { intros x y. split; intros [q Q]; exists q; lia. }
    rewrite !M, divide_odd; [apply IH|lia|]. now rewrite Z.odd_add, Z.odd_mul.
  - apply Nat.odd_spec in O.
    assert (N : forall y, Z.odd y = true -> ~ (2 * 2 ^ Z.of_nat e | y)).
    { intros y Hy [q ->]. rewrite Z.mul_assoc, !Z.odd_mul, andb_false_r in Hy. discriminate. }
    split; intros D; exfalso; [apply (N (geo k)); [now rewrite geo_parity|exact D]|apply (N (Z.of_nat k)); [|exact D]].
    apply Nat.odd_spec in O. destruct O as [j ->]. replace (Z.of_nat (2 * j + 1)) with (1 + 2 * Z.of_nat j) by lia. now rewrite Z.odd_add, Z.odd_mul.
Qed.
Lemma drift_odd s : Z.odd ((a - 1) * s + c) = true.
Proof. destruct a_odd as [q ->]. rewrite Z.odd_add, Z.odd_mul, Hc. replace (1 + 4 * q - 1) with (2 * (2 * q)) by lia. rewrite Z.odd_mul. reflexivity. Qed.
Lemma lin_divides e k s : (2 ^ Z.of_nat e | lin k s - s) <-> (2 ^ Z.of_nat e | Z.of_nat k).
Proof. rewrite lin_geo, divide_odd; [apply geo_divides|lia|apply drift_odd]. Qed.
(** the period modulo 2^e is 2^e *)
Lemma lin_period e i j s : (2 ^ Z.of_nat e | lin i s - lin j s) <-> (2 ^ Z.of_nat e | Z.of_nat i - Z.of_nat j).
Proof.
  destruct (Nat.le_ge_cases j i) as [L|L].
  - replace i with (i - j + j)%nat at 1 by lia. rewrite lin_add, lin_divides. replace (Z.of_nat (i - j)) with (Z.of_nat i - Z.of_nat j) by lia. reflexivity.
  - replace j with (j - i + i)%nat at 1 by lia. rewrite lin_add. set (x := lin i s).
    replace (x - lin (j - i) x) with (- (lin (j - i) x - x)) by lia. replace (Z.of_nat i - Z.of_nat j) with (- Z.of_nat (j - i)) by lia. rewrite !Z.divide_opp_r. apply lin_divides.
Qed.
(** the time at which t is reached modulo 2^e *)
Fixpoint locate (e : nat) (s t : Z) : Z :=
  match e with
  | O => 0
  | S d => let k := locate d s t in if (lin (Z.to_nat k) s - t) mod 2 ^ Z.of_nat e =? 0 then k else k + 2 ^ Z.of_nat d
  end.
Lemma locate_spec e s t : 0 <= locate e s t < 2 ^ Z.of_nat e /\ (2 ^ Z.of_nat e | lin (Z.to_nat (locate e s t)) s - t).
Proof.
  induction e as [|e IH]; [cbn [locate Z.of_nat]; rewrite Z.pow_0_r; split; [lia|apply Z.divide_1_l]|].
  cbn [locate]. set (k := locate e s t) in *. destruct IH as [B [q Q]].
  rewrite Nat2Z.inj_succ, Z.pow_succ_r by lia. set (p := 2 ^ Z.of_nat e) in *.
  assert (P : 0 < p) by (apply Z.pow_pos_nonneg; lia).
  destruct (Z.eqb_spec ((lin (Z.to_nat k) s - t) mod (2 * p)) 0) as [E|E].
  - split; [lia|]. apply Z.mod_divide; [lia|exact E].
  - split; [lia|]. rewrite Z2Nat.inj_add by lia. rewrite Nat.add_comm, lin_add. set (x := lin (Z.to_nat k) s) in *.
    assert (D1 : (p | lin (Z.to_nat p) x - x)) by (apply lin_divides; rewrite Z2Nat.id by lia; apply Z.divide_refl).
    assert (D2 : ~ (2 ^ Z.of_nat (S e) | lin (Z.to_nat p) x - x)).
    { rewrite lin_divides, Z2Nat.id by lia. rewrite Nat2Z.inj_succ, Z.pow_succ_r by lia. fold p. intros [z Z]. assert (2 * z = 1) by nia. lia. }
    rewrite Nat2Z.inj_succ, Z.pow_succ_r in D2 by lia. fold p in D2. destruct D1 as [r R].
    destruct (Z.Even_or_Odd r) as [[r' ->]|[r' ->]]; [exfalso; apply D2; exists r'; lia|].
    destruct (Z.Even_or_Odd q) as [[q' ->]|[q' ->]]; [exfalso; apply E, Z.mod_divide; [lia|]; exists q'; lia|].
    exists (r' + q' + 1). lia.
Qed.
End Lcg.

(** the state after k calls *)
Lemma odd_lor x : Z.odd (Z.lor x 1) = true.
Proof. now rewrite <- Z.bit0_odd, Z.lor_spec, Z.bit0_odd, Z.bit0_odd, orb_true_r. Qed.
Notation mult := 6364136223846793005.
Lemma after_state g k : word 64 (state g) -> inc (after k g) = inc g /\ state (after k g) = lin mult (Z.lor (inc g) 1) k (state g) mod 2 ^ 64.
Proof.
  intros W. induction k; cbn [after lin]; [split; [reflexivity|symmetry; apply Z.mod_small; exact W]|]. destruct IHk as [I S]. cbn [call snd state inc]. rewrite I. split; [reflexivity|].
  unfold next. rewrite S. rewrite Z.add_mod, Z.mul_mod_idemp_l, <- Z.add_mod by discriminate. f_equal. lia.
Qed.
Lemma mod_eq m x y : 0 < m -> (x mod m = y mod m <-> (m | x - y)).
Proof.
  intros M. split.
  - intros E. pose proof (Z.div_mod x m ltac:(lia)). pose proof (Z.div_mod y m ltac:(lia)). exists (x / m - y / m). rewrite Z.mul_sub_distr_r. lia.
  - intros [q Q]. replace x with (y + q * m) by lia. now rewrite Z.mod_add by lia.
Qed.

(** the output function *)
Definition rotr (x r : Z) : Z := Z.lor (Z.shiftr x r) (Z.shiftl x (Z.land (- r mod 2 ^ 32) 31) mod 2 ^ 32).
Lemma minus_land r : 0 <= r < 32 -> Z.land (- r mod 2 ^ 32) 31 = (32 - r) mod 32.
Proof.
  intros R. change 31 with (Z.ones 5). rewrite Z.land_ones by lia. change (2 ^ 5) with 32. change (2 ^ 32) with (32 * 2 ^ 27).
  destruct (Z.eq_dec r 0) as [-> |N]; [reflexivity|].
  replace (- r mod (32 * 2 ^ 27)) with (32 * 2 ^ 27 - r). 2:{ apply Z.mod_unique_pos with (q := -1); lia. }
  replace (32 * 2 ^ 27 - r) with (32 - r + (2 ^ 27 - 1) * 32) by lia. rewrite Z.mod_add by lia. reflexivity.
Qed.
Lemma word_high b x i : 0 <= b -> word b x -> b <= i -> Z.testbit x i = false.
Proof. intros Hb [H1 H2] L. destruct (Z.eq_dec x 0) as [-> |N]; [apply Z.bits_0|]. apply Z.bits_above_log2; [exact H1|]. apply Z.log2_lt_pow2 in H2; lia. Qed.
Lemma bits_word b x : 0 <= b -> 0 <= x -> (forall i, b <= i -> Z.testbit x i = false) -> word b x.
Proof.
  intros Hb H0 H. split; [exact H0|]. replace x with (x mod 2 ^ b); [apply Z.mod_pos_bound, Z.pow_pos_nonneg; lia|].
  apply Z.bits_inj'. intros i Hi. destruct (Z.lt_ge_cases i b); [now rewrite Z.mod_pow2_bits_low|rewrite Z.mod_pow2_bits_high by lia; symmetry; apply H; lia].
Qed.
Lemma rotr_bit x r i : word 32 x -> 0 <= r < 32 -> 0 <= i < 32 -> Z.testbit (rotr x r) i = Z.testbit x ((i + r) mod 32).
Proof.
  intros W R I. unfold rotr. rewrite minus_land by exact R. rewrite Z.lor_spec, Z.shiftr_spec, Z.mod_pow2_bits_low by lia.
  destruct (Z.eq_dec r 0) as [-> |N].
  - rewrite Z_mod_same_full. rewrite Z.shiftl_0_r, Z.add_0_r, orb_diag. rewrite Z.mod_small by lia. reflexivity.
  - rewrite (Z.mod_small (32 - r)) by lia. rewrite Z.shiftl_spec by lia. destruct (Z.lt_ge_cases (i + r) 32) as [L|L].
    + rewrite (Z.mod_small (i + r)) by lia. rewrite (Z.testbit_neg_r x (i - (32 - r))) by lia. apply orb_false_r.
    + rewrite (word_high 32 x (i + r)) by (try exact W; lia). cbn [orb]. f_equal. apply Z.mod_unique_pos with (q := 1); lia.
Qed.
Lemma rotr_word x r : word 32 x -> 0 <= r < 32 -> word 32 (rotr x r).
Proof.
  intros W R. apply bits_word; [lia| |].
  - unfold rotr. apply Z.lor_nonneg. split; [apply Z.shiftr_nonneg; destruct W; lia|apply Z.mod_pos_bound; lia].
  - intros i Hi. unfold rotr. rewrite Z.lor_spec, Z.shiftr_spec, Z.mod_pow2_bits_high by lia. rewrite (word_high 32 x (i + r)) by (try exact W; lia). reflexivity.
Qed.
Lemma rotr_inverse x r : word 32 x -> 0 <= r < 32 -> rotr (rotr x ((32 - r) mod 32)) r = x /\ rotr (rotr x r) ((32 - r) mod 32) = x.
Proof.
  intros W R. assert (Q : 0 <= (32 - r) mod 32 < 32) by (apply Z.mod_pos_bound; lia).
  assert (G : forall p q, 0 <= p < 32 -> 0 <= q < 32 -> (p + q) mod 32 = 0 -> rotr (rotr x p) q = x).
  { intros p q Hp Hq E. apply Z.bits_inj'. intros i Hi. destruct (Z.lt_ge_cases i 32).
    - rewrite rotr_bit; [|apply rotr_word; assumption|lia|lia]. rewrite rotr_bit; [|exact W|lia|apply Z.mod_pos_bound; lia]. f_equal.
      rewrite Z.add_mod_idemp_l by lia. replace (i + q + p) with (i + (p + q)) by lia. rewrite <- Z.add_mod_idemp_r, E, Z.add_0_r by lia. apply Z.mod_small. lia.
    - rewrite (word_high 32 x i), (word_high 32 _ i); try lia; try reflexivity; [|exact W]. apply rotr_word; [apply rotr_word|]; assumption. }
  split; apply G; try assumption; [rewrite Z.add_mod_idemp_l by lia|rewrite Z.add_mod_idemp_r by lia]; [replace (32 - r + r) with 32 by lia|replace (r + (32 - r)) with 32 by lia]; reflexivity.
Qed.
Lemma xorshift37 z : word 37 z ->
  let w := Z.lxor z (Z.shiftr z 18) in word 37 w /\ Z.shiftr w 32 = Z.shiftr z 32 /\ Z.lxor w (Z.lxor (Z.shiftr w 18) (Z.shiftr w 36)) = z.
Proof.
  intros W w. assert (Z0 : 0 <= z) by (destruct W; lia).
  assert (Hw : word 37 w).
  { apply bits_word; [lia|apply Z.lxor_nonneg; rewrite Z.shiftr_nonneg; tauto|]. intros i Hi. unfold w. rewrite Z.lxor_spec, Z.shiftr_spec by lia. now rewrite !(word_high 37 z) by (try exact W; lia). }
  split; [exact Hw|]. split.
  - apply Z.bits_inj'. intros i Hi. unfold w. rewrite !Z.shiftr_spec, Z.lxor_spec, Z.shiftr_spec by lia. rewrite (word_high 37 z (i + 32 + 18)) by (try exact W; lia). apply xorb_false_r.
  - apply Z.bits_inj'. intros i Hi. unfold w. rewrite !Z.lxor_spec, !Z.shiftr_spec, !Z.lxor_spec, !Z.shiftr_spec by lia.
    replace (i + 36 + 18) with (i + 54) by lia. replace (i + 18 + 18) with (i + 36) by lia. rewrite (word_high 37 z (i + 54)) by (try exact W; lia).
    destruct (Z.testbit z i), (Z.testbit z (i + 18)), (Z.testbit z (i + 36)); reflexivity.
Qed.
Lemma unxorshift37 w : word 37 w ->
  let z := Z.lxor w (Z.lxor (Z.shiftr w 18) (Z.shiftr w 36)) in word 37 z /\ Z.lxor z (Z.shiftr z 18) = w.
Proof.
  intros W z. split.
  - apply bits_word; [lia| |].
    + assert (0 <= w) by (destruct W; lia). unfold z. rewrite !Z.lxor_nonneg, !Z.shiftr_nonneg. tauto.
    + intros i Hi. unfold z. rewrite !Z.lxor_spec, !Z.shiftr_spec by lia. now rewrite !(word_high 37 w) by (try exact W; lia).
  - apply Z.bits_inj'. intros i Hi. unfold z. rewrite !Z.lxor_spec, !Z.shiftr_spec, !Z.lxor_spec, !Z.shiftr_spec by lia.
    replace (i + 18 + 36) with (i + 54) by lia. replace (i + 18 + 18) with (i + 36) by lia. rewrite (word_high 37 w (i + 54)) by (try exact W; lia).
    destruct (Z.testbit w i), (Z.testbit w (i + 18)), (Z.testbit w (i + 36)); reflexivity.
Qed.
(** the output in terms of the upper 37 bits *)
Lemma output_upper s : word 64 s -> let z := Z.shiftr s 27 in let w := Z.lxor z (Z.shiftr z 18) in
  word 37 z /\ output s = rotr (w mod 2 ^ 32) (Z.shiftr w 32) /\ 0 <= Z.shiftr w 32 < 32.
Proof.
  intros W z w. assert (Hz : word 37 z).
  { destruct W as [W1 W2]. unfold z. rewrite Z.shiftr_div_pow2 by lia. split; [apply Z.div_pos; lia|apply Z.div_lt_upper_bound; [lia|]]. change (2 ^ 27 * 2 ^ 37) with (2 ^ 64). exact W2. }
  destruct (xorshift37 z Hz) as (Hw & E & _). fold w in Hw, E. split; [exact Hz|]. rewrite E. split.
  - unfold output, rotr. replace (Z.shiftr s 59) with (Z.shiftr z 32) by (unfold z; now rewrite Z.shiftr_shiftr by lia).
    replace (Z.shiftr (Z.lxor (Z.shiftr s 18) s) 27) with w; [reflexivity|]. unfold w, z. rewrite Z.shiftr_lxor, !Z.shiftr_shiftr by lia. now rewrite Z.lxor_comm.
  - destruct Hz as [H1 H2]. rewrite Z.shiftr_div_pow2 by lia. split; [apply Z.div_pos; lia|apply Z.div_lt_upper_bound; [lia|]]. change (2 ^ 32 * 32) with (2 ^ 37). exact H2.
Qed.
(** the states with a given output *)
Definition preimage (y i : Z) : Z :=
  let r := i / 2 ^ 27 in let w := r * 2 ^ 32 + rotr y ((32 - r) mod 32) in
  Z.lxor w (Z.lxor (Z.shiftr w 18) (Z.shiftr w 36)) * 2 ^ 27 + i mod 2 ^ 27.
Lemma preimage_parts y i : word 32 y -> word 32 i -> word 64 (preimage y i) /\ Z.shiftr (preimage y i) 27 = preimage y i / 2 ^ 27 /\ preimage y i mod 2 ^ 27 = i mod 2 ^ 27 /\
  let z := preimage y i / 2 ^ 27 in Z.lxor z (Z.shiftr z 18) = i / 2 ^ 27 * 2 ^ 32 + rotr y ((32 - i / 2 ^ 27) mod 32).
Proof.
  intros Y I. set (r := i / 2 ^ 27). assert (R : 0 <= r < 32).
  { destruct I as [I1 I2]. unfold r. split; [apply Z.div_pos; lia|apply Z.div_lt_upper_bound; [lia|]]. change (2 ^ 27 * 32) with (2 ^ 32). exact I2. }
  unfold preimage. fold r. set (w := r * 2 ^ 32 + rotr y ((32 - r) mod 32)).
  assert (Hr : word 32 (rotr y ((32 - r) mod 32))) by (apply rotr_word; [exact Y|apply Z.mod_pos_bound; lia]).
  assert (Hw : word 37 w) by (unfold w, word in *; change (2 ^ 37) with (32 * 2 ^ 32); lia).
  destruct (unxorshift37 w Hw) as [Hz E]. set (z := Z.lxor w (Z.lxor (Z.shiftr w 18) (Z.shiftr w 36))) in *.
  pose proof (Z.mod_pos_bound i (2 ^ 27) ltac:(lia)) as L.
  assert (D : (z * 2 ^ 27 + i mod 2 ^ 27) / 2 ^ 27 = z) by (rewrite Z.add_comm, Z.div_add by lia; rewrite Z.div_small by lia; lia).
  split; [unfold word in *; change (2 ^ 64) with (2 ^ 37 * 2 ^ 27); nia|]. split; [now rewrite Z.shiftr_div_pow2 by lia|].
  split; [rewrite Z.add_comm, Z.mod_add by lia; apply Z.mod_small; lia|]. cbv zeta. rewrite D. exact E.
Qed.
Lemma output_preimage y i : word 32 y -> word 32 i -> output (preimage y i) = y.
Proof.
  intros Y I. destruct (preimage_parts y i Y I) as (W & S & _ & E). cbv zeta in E. destruct (output_upper _ W) as (_ & O & B). cbv zeta in O, B. rewrite O. rewrite S in *. rewrite E in *.
  set (r := i / 2 ^ 27) in *.
  assert (R : 0 <= r < 32) by (destruct I as [I1 I2]; unfold r; split; [apply Z.div_pos; lia|apply Z.div_lt_upper_bound; [lia|]]; change (2 ^ 27 * 32) with (2 ^ 32); exact I2).
  assert (Hr : word 32 (rotr y ((32 - r) mod 32))) by (apply rotr_word; [exact Y|apply Z.mod_pos_bound; lia]).
  rewrite Z.add_comm. rewrite Z.mod_add by lia. rewrite (Z.mod_small _ _ Hr). rewrite Z.shiftr_div_pow2 by lia. rewrite Z.div_add by lia. rewrite (Z.div_small _ _ Hr), Z.add_0_l.
  apply rotr_inverse; assumption.
Qed.
Lemma preimage_inj y i j : word 32 y -> word 32 i -> word 32 j -> preimage y i = preimage y j -> i = j.
Proof.
  intros Y I J E. destruct (preimage_parts y i Y I) as (_ & _ & L1 & E1). destruct (preimage_parts y j Y J) as (_ & _ & L2 & E2). cbv zeta in E1, E2. rewrite E in L1, E1.
  assert (Q : forall r x, word 32 x -> (r * 2 ^ 32 + x) / 2 ^ 32 = r) by (intros r x X; rewrite Z.add_comm, Z.div_add, (Z.div_small _ _ X) by lia; lia).
  assert (U : i / 2 ^ 27 = j / 2 ^ 27).
  { rewrite <- (Q (i / 2 ^ 27) (rotr y ((32 - i / 2 ^ 27) mod 32))) by (apply rotr_word; [exact Y|apply Z.mod_pos_bound; lia]).
    rewrite <- (Q (j / 2 ^ 27) (rotr y ((32 - j / 2 ^ 27) mod 32))) by (apply rotr_word; [exact Y|apply Z.mod_pos_bound; lia]). f_equal. congruence. }
  rewrite (Z.div_mod i (2 ^ 27)), (Z.div_mod j (2 ^ 27)) by lia. rewrite U. congruence.
Qed.
Lemma preimage_onto y s : word 32 y -> word 64 s -> output s = y -> exists i, word 32 i /\ preimage y i = s.
Proof.
  intros Y W O. destruct (output_upper s W) as (Hz & O' & R). cbv zeta in O', R. set (z := Z.shiftr s 27) in *. destruct (xorshift37 z Hz) as (Hw & _ & U). cbv zeta in Hw, U.
  set (w := Z.lxor z (Z.shiftr z 18)) in *. set (r := Z.shiftr w 32) in *. exists (r * 2 ^ 27 + s mod 2 ^ 27).
  pose proof (Z.mod_pos_bound s (2 ^ 27) ltac:(lia)) as L. split; [unfold word; change (2 ^ 32) with (32 * 2 ^ 27); lia|].
  unfold preimage. assert (D : (r * 2 ^ 27 + s mod 2 ^ 27) / 2 ^ 27 = r) by (rewrite Z.add_comm, Z.div_add by lia; rewrite Z.div_small by lia; lia). rewrite D.
  assert (X : rotr y ((32 - r) mod 32) = w mod 2 ^ 32) by (rewrite <- O, O'; apply rotr_inverse; [apply Z.mod_pos_bound; lia|exact R]). rewrite X.
  replace (r * 2 ^ 32 + w mod 2 ^ 32) with w. 2:{ unfold r. rewrite Z.shiftr_div_pow2 by lia. pose proof (Z.div_mod w (2 ^ 32) ltac:(lia)). lia. }
  rewrite U. replace ((r * 2 ^ 27 + s mod 2 ^ 27) mod 2 ^ 27) with (s mod 2 ^ 27). 2:{ rewrite Z.add_comm, Z.mod_add, Z.mod_mod by lia. reflexivity. }
  unfold z. rewrite Z.shiftr_div_pow2 by lia. pose proof (Z.div_mod s (2 ^ 27) ltac:(lia)). lia.
Qed.
