From Coq Require Import QArith Znumtheory.
From Verif Require Import Prelude SortModel RatModel RatSpec.
Local Open Scope Z_scope.

Ltac inv_bind := repeat match goal with
  | H : bind ?o _ = Some _ |- _ => let E := fresh "E" in destruct o eqn:E; [cbn [bind] in H|discriminate H]
  end.
Lemma chk_some x y : chk x = Some y -> y = x /\ - 2 ^ 63 <= x < 2 ^ 63.
Proof. unfold chk. destruct (_ && _) eqn:E; [|discriminate]. intro H. injection H as <-. lia. Qed.
Lemma chk_ok x : - 2 ^ 63 <= x < 2 ^ 63 -> chk x = Some x.
Proof. intro H. unfold chk. destruct (_ && _) eqn:E; [reflexivity|]. lia. Qed.
Lemma cdiv_some a b q : cdiv a b = Some q -> b <> 0 /\ q = Z.quot a b.
Proof. unfold cdiv. destruct (Z.eqb_spec b 0); [discriminate|]. intro H. apply chk_some in H as [-> _]. auto. Qed.
Lemma cmod_some a b q : cmod a b = Some q -> b <> 0 /\ q = Z.rem a b.
Proof. unfold cmod. destruct (Z.eqb_spec b 0); [discriminate|]. intro H. inv_bind. injection H as <-. auto. Qed.

Lemma gcd_rem u v : Z.gcd v (Z.rem u v) = Z.gcd u v.
Proof.
  destruct (Z.eq_dec v 0) as [->|Hv].
  - destruct u; cbn; reflexivity.
  - rewrite (Z.rem_eq u v) by assumption. replace (u - v * (u ÷ v)) with (u + (- (u ÷ v)) * v) by ring.
    rewrite Z.gcd_add_mult_diag_r. apply Z.gcd_comm.
Qed.
Lemma gcd_loop_ok f : forall u v g, gcd_loop f u v = Some g -> Z.abs g = Z.gcd u v.
Proof.
  induction f as [|f IH]; intros u v g; cbn [gcd_loop]; destruct (Z.eqb_spec v 0) as [->|Hv]; intro H; try discriminate;
    try (injection H as <-; rewrite Z.gcd_0_r; reflexivity).
  inv_bind. apply cmod_some in E as [_ ->]. rewrite (IH _ _ _ H). apply gcd_rem.
Qed.
Lemma gcd_ok u v g : gcd u v = Some g -> Z.abs g = Z.gcd u v.
Proof. apply gcd_loop_ok. Qed.
Lemma quot_range u v : - 2 ^ 63 < u < 2 ^ 63 -> v <> 0 -> - 2 ^ 63 < Z.quot u v < 2 ^ 63.
Proof.
  intros H Hv. assert (Z.abs (Z.quot u v) <= Z.abs u); [|lia]. rewrite <- Z.quot_abs by assumption. rewrite Z.quot_div_nonneg by lia.
  apply Z.div_le_upper_bound; [lia|]. assert (1 * Z.abs u <= Z.abs v * Z.abs u) by (apply Z.mul_le_mono_nonneg_r; lia). lia.
Qed.
Lemma rem_abs u v : v <> 0 -> Z.abs (Z.rem u v) < Z.abs v.
Proof. intro H. apply Z.rem_bound_abs. exact H. Qed.
(** two iterations halve |v| *)
Lemma rem_half u v : v <> 0 -> Z.rem u v <> 0 -> 2 * Z.abs (Z.rem v (Z.rem u v)) < Z.abs v.
Proof.
  intros Hv Hr. pose proof (rem_abs u v Hv) as B. set (r := Z.rem u v) in *. rewrite <- Z.rem_abs by assumption. rewrite Z.rem_mod_nonneg by lia.
  pose proof (Z.mod_pos_bound (Z.abs v) (Z.abs r) ltac:(lia)) as M. pose proof (Z.div_mod (Z.abs v) (Z.abs r) ltac:(lia)) as D.
  assert (1 <= Z.abs v / Z.abs r) by (apply Z.div_le_lower_bound; lia).
  assert (Z.abs r * 1 <= Z.abs r * (Z.abs v / Z.abs r)) by (apply Z.mul_le_mono_nonneg_l; lia). lia.
Qed.
Lemma log2_half a b : 0 <= a -> 2 * a < b -> a <> 0 -> Z.log2 a + 1 <= Z.log2 b.
Proof. intros Ha H Hn. pose proof (Z.log2_double a ltac:(lia)) as D. pose proof (Z.log2_le_mono (2 * a) b ltac:(lia)). lia. Qed.
Definition inr (x : Z) := - 2 ^ 63 < x < 2 ^ 63.
Lemma cmod_in u v : inr u -> v <> 0 -> cmod u v = Some (Z.rem u v).
Proof. intros H Hv. unfold cmod. destruct (Z.eqb_spec v 0); [contradiction|]. rewrite chk_ok; [reflexivity|]. pose proof (quot_range u v H Hv). lia. Qed.
Lemma gcd_total_n n : forall u v f, inr u -> inr v -> Z.log2 (Z.abs v) <= Z.of_nat n -> (2 * n + 2 <= f)%nat -> exists g, gcd_loop f u v = Some g.
Proof.
  induction n as [|n IH]; intros u v f Hu Hv Hl Hf.
  - destruct f as [|[|f]]; try lia. cbn [gcd_loop]. destruct (Z.eqb_spec v 0); [eauto|]. rewrite cmod_in by assumption. cbn [bind].
    assert (Z.abs v < 2) by (apply Z.log2_lt_cancel; cbn; lia). pose proof (rem_abs u v ltac:(assumption)). destruct (Z.eqb_spec (Z.rem u v) 0); [eauto|lia].
  - destruct f as [|[|f]]; try lia. cbn [gcd_loop]. destruct (Z.eqb_spec v 0); [eauto|]. rewrite cmod_in by assumption. cbn [bind].
    pose proof (rem_abs u v ltac:(assumption)). destruct (Z.eqb_spec (Z.rem u v) 0); [eauto|]. rewrite cmod_in by assumption. cbn [bind].
    pose proof (rem_half u v ltac:(assumption) ltac:(assumption)). set (r2 := Z.rem v (Z.rem u v)) in *.
    destruct (Z.eq_dec r2 0) as [->|Nz]; [destruct f; cbn; eauto|]. apply IH; [unfold inr in *; lia|unfold inr in *; lia| |lia].
    pose proof (log2_half (Z.abs r2) (Z.abs v) ltac:(lia) ltac:(lia) ltac:(lia)). lia.
Qed.
Lemma gcd_total u v : inr u -> inr v -> exists g, gcd u v = Some g.
Proof. intros Hu Hv. unfold gcd, gcd_fuel. apply (gcd_total_n (Z.to_nat (Z.log2 (Z.abs v)))); [exact Hu|exact Hv| |lia]. pose proof (Z.log2_nonneg (Z.abs v)). lia. Qed.

(** values *)
Lemma inj0 d : d <> 0 -> ~ (inject_Z d == 0)%Q.
Proof. intros H E. unfold Qeq in E. cbn in E. lia. Qed.
Lemma value_eq n d n' d' : d <> 0 -> d' <> 0 -> ((value (n, d) == value (n', d'))%Q <-> n * d' = n' * d).
Proof.
  intros H H'. unfold value. cbn [fst snd]. pose proof (inj0 d H) as K. pose proof (inj0 d' H') as K'. split; intro E.
  - assert (E' : (inject_Z n * inject_Z d' == inject_Z n' * inject_Z d)%Q).
    { transitivity ((inject_Z n / inject_Z d) * inject_Z d * inject_Z d')%Q; [field; assumption|]. rewrite E. field; assumption. }
    rewrite <- !inject_Z_mult in E'. unfold Qeq in E'. cbn in E'. lia.
  - assert (E' : (inject_Z n * inject_Z d' == inject_Z n' * inject_Z d)%Q) by (rewrite <- !inject_Z_mult; rewrite E; reflexivity).
    transitivity ((inject_Z n * inject_Z d') / (inject_Z d * inject_Z d'))%Q; [field; auto|]. rewrite E'. field; auto.
Qed.
Lemma value_add n d n' d' : d <> 0 -> d' <> 0 -> (value (n, d) + value (n', d') == value ((n * d' + n' * d)%Z, (d * d')%Z))%Q.
Proof. intros H H'. unfold value. cbn [fst snd]. rewrite inject_Z_plus, !inject_Z_mult. field. split; apply inj0; assumption. Qed.
Lemma value_sub n d n' d' : d <> 0 -> d' <> 0 -> (value (n, d) - value (n', d') == value ((n * d' - n' * d)%Z, (d * d')%Z))%Q.
Proof. intros H H'. unfold value. cbn [fst snd]. replace (n * d' - n' * d) with (n * d' + - (n' * d)) by ring. rewrite inject_Z_plus, inject_Z_opp, !inject_Z_mult. field. split; apply inj0; assumption. Qed.
Lemma value_mul n d n' d' : d <> 0 -> d' <> 0 -> (value (n, d) * value (n', d') == value ((n * n')%Z, (d * d')%Z))%Q.
Proof. intros H H'. unfold value. cbn [fst snd]. rewrite !inject_Z_mult. field. split; apply inj0; assumption. Qed.
Lemma value_div n d n' d' : d <> 0 -> d' <> 0 -> n' <> 0 -> (value (n, d) / value (n', d') == value ((n * d')%Z, (d * n')%Z))%Q.
Proof. intros H H' H''. unfold value. cbn [fst snd]. rewrite !inject_Z_mult. field. repeat split; apply inj0; assumption. Qed.
Lemma value_opp n d : d <> 0 -> (- value (n, d) == value ((- n)%Z, d))%Q.
Proof. intros H. unfold value. cbn [fst snd]. rewrite inject_Z_opp. field. apply inj0; assumption. Qed.

(** exact division by a (signed) gcd *)
Lemma abs_divide g a b : Z.abs g = Z.gcd a b -> (g | a) /\ (g | b).
Proof. intro H. split; apply Z.divide_abs_l; rewrite H; [apply Z.gcd_divide_l|apply Z.gcd_divide_r]. Qed.
Lemma quot_exact a g : g <> 0 -> (g | a) -> a = g * Z.quot a g.
Proof. intros H [k ->]. rewrite Z.quot_mul by assumption. ring. Qed.
Lemma gcd_quot a b g : Z.abs g = Z.gcd a b -> g <> 0 -> Z.gcd (Z.quot a g) (Z.quot b g) = 1.
Proof.
  intros H Hg. destruct (abs_divide g a b H) as [Da Db]. pose proof (quot_exact a g Hg Da) as Ea. pose proof (quot_exact b g Hg Db) as Eb.
  set (x := Z.quot a g) in *. set (y := Z.quot b g) in *. rewrite Ea, Eb, Z.gcd_mul_mono_l in H. assert (Z.abs g * Z.gcd x y = Z.abs g * 1) as K by lia.
  apply Z.mul_reg_l in K; lia.
Qed.
Lemma rp a b : Z.gcd a b = 1 <-> rel_prime a b.
Proof. apply Zgcd_1_rel_prime. Qed.
Lemma rp_divide a b c : rel_prime a b -> (c | b) -> rel_prime a c.
Proof. intros H D. apply rel_prime_sym. apply (rel_prime_div b a c); [apply rel_prime_sym; exact H|exact D]. Qed.
Lemma rp_divide_l a b c : rel_prime a b -> (c | a) -> rel_prime c b.
Proof. intros H D. apply (rel_prime_div a b c H D). Qed.
(** num' = a d1 + c b1 is prime to b1 when a and d1 are *)
Lemma rp_lin a b1 c d1 : rel_prime a b1 -> rel_prime d1 b1 -> rel_prime (a * d1 + c * b1) b1.
Proof.
  intros H K. apply rp. rewrite Z.gcd_comm, Z.add_comm. replace (c * b1 + a * d1) with (a * d1 + c * b1) by ring. rewrite Z.gcd_add_mult_diag_r. apply rp.
  apply rel_prime_mult; apply rel_prime_sym; assumption.
Qed.

Lemma alg1 a b d g b1 d1 g2 e N n k : b = g * b1 -> d = g * d1 -> d = g2 * e -> N = g2 * n -> N = a * d1 + k * b1 -> n * (b * d) = (a * d + k * b) * (b1 * e).
Proof. intros H1 H2 H3 H4 H5. transitivity ((g2 * n) * b * e); [rewrite H3; ring|]. rewrite <- H4, H5, H1, H2. ring. Qed.
Lemma addsub_ok s x y z : reduced x -> reduced y -> addsub s x y = Some z ->
  reduced z /\ (value z == if s then value x - value y else value x + value y)%Q.
Proof.
  destruct x as [a b], y as [c d]. intros [Hb Rx] [Hd Ry] H. cbn [fst snd] in *. unfold addsub in H. inv_bind. injection H as <-.
  rename z0 into g, z1 into b1, z2 into d1, z3 into p, z4 into q, z5 into N, z6 into g2, z7 into N', z8 into dq, z9 into D.
  repeat match goal with H : chk _ = Some _ |- _ => apply chk_some in H as [-> _] | H : cdiv _ _ = Some _ |- _ => apply cdiv_some in H as [? ->] | H : gcd _ _ = Some _ |- _ => apply gcd_ok in H end.
  destruct (abs_divide _ _ _ E) as [Dgb Dgd]. pose proof (quot_exact b g ltac:(assumption) Dgb) as Eb. pose proof (quot_exact d g ltac:(assumption) Dgd) as Ed.
  pose proof (gcd_quot _ _ _ E ltac:(assumption)) as Rbd. set (b1 := Z.quot b g) in *. set (d1 := Z.quot d g) in *.
  assert (Hn : exists N, (if s then a * d1 - c * b1 else a * d1 + c * b1) = N /\ N = a * d1 + (if s then - c else c) * b1) by (destruct s; eexists; split; try reflexivity; ring).
  destruct Hn as (N & EN & EN'). rewrite EN in *. clear EN.
  destruct (abs_divide _ _ _ E5) as [D2n D2g]. pose proof (quot_exact N g2 ltac:(assumption) D2n) as En. assert (D2d : (g2 | d)) by (eapply Z.divide_trans; eassumption).
  pose proof (quot_exact d g2 ltac:(assumption) D2d) as Ed2. pose proof (gcd_quot _ _ _ E5 ltac:(assumption)) as R2. pose proof (quot_exact g g2 ltac:(assumption) D2g) as Eg2.
  set (n := Z.quot N g2) in *. set (e := Z.quot d g2) in *. set (h := Z.quot g g2) in *.
  assert (b1 <> 0) by (intros K; rewrite K in Eb; lia). assert (d1 <> 0) by (intros K; rewrite K in Ed; lia). assert (e <> 0) by (intros K; rewrite K in Ed2; lia).
  assert (Ee : e = d1 * h) by (apply (Z.mul_reg_l _ _ g2); [assumption|]; rewrite <- Ed2; rewrite Ed at 1; rewrite Eg2 at 1; ring).
  assert (Rab : rel_prime a b1) by (eapply rp_divide; [apply rp; exact Rx|exists g; lia]).
  assert (Rcd : rel_prime c d1) by (eapply rp_divide; [apply rp; exact Ry|exists g; lia]).
  assert (Rn1 : rel_prime N b1) by (rewrite EN'; apply rp_lin; [exact Rab|apply rel_prime_sym, rp; exact Rbd]).
  assert (Rn2 : rel_prime N d1).
  { rewrite EN'. replace (a * d1 + (if s then - c else c) * b1) with ((if s then - c else c) * b1 + a * d1) by ring. apply rp_lin; [|apply rp; exact Rbd].
    destruct s; [|exact Rcd]. apply rp. rewrite Z.gcd_opp_l. apply rp. exact Rcd. }
  assert (Dn : (n | N)) by (exists g2; lia).
  split.
  - split; cbn [fst snd]; [intro K; apply Z.mul_eq_0 in K; destruct K; contradiction|]. apply rp. rewrite Ee. apply rel_prime_mult; [|apply rel_prime_mult].
    + eapply rp_divide_l; eassumption.
    + eapply rp_divide_l; eassumption.
    + apply rp. exact R2.
  - assert (Hbe : b1 * e <> 0) by (intro K; apply Z.mul_eq_0 in K; destruct K; contradiction). assert (Hbd : b * d <> 0) by (intro K; apply Z.mul_eq_0 in K; destruct K; contradiction).
    destruct s.
    + rewrite value_sub by assumption. apply value_eq; try assumption. replace (a * d - c * b) with (a * d + (- c) * b) by ring. eapply alg1; eassumption.
    + rewrite value_add by assumption. apply value_eq; try assumption. eapply alg1; eassumption.
Qed.
Lemma mul_ok x y z : reduced x -> reduced y -> mul x y = Some z -> reduced z /\ (value z == value x * value y)%Q.
Proof.
  destruct x as [a b], y as [c d]. intros [Hb Rx] [Hd Ry] H. cbn [fst snd] in *. unfold mul in H. inv_bind. injection H as <-.
  repeat match goal with H : chk _ = Some _ |- _ => apply chk_some in H as [-> _] | H : cdiv _ _ = Some _ |- _ => apply cdiv_some in H as [? ->] | H : gcd _ _ = Some _ |- _ => apply gcd_ok in H end.
  rename z0 into g1, z1 into g2.
  destruct (abs_divide _ _ _ E) as [D1a D1d]. destruct (abs_divide _ _ _ E0) as [D2c D2b].
  pose proof (gcd_quot _ _ _ E ltac:(assumption)) as R1. pose proof (gcd_quot _ _ _ E0 ltac:(assumption)) as R2.
  pose proof (quot_exact a g1 ltac:(assumption) D1a) as Ea. pose proof (quot_exact d g1 ltac:(assumption) D1d) as Ed.
  pose proof (quot_exact c g2 ltac:(assumption) D2c) as Ec. pose proof (quot_exact b g2 ltac:(assumption) D2b) as Eb.
  set (a1 := Z.quot a g1) in *. set (d1 := Z.quot d g1) in *. set (c1 := Z.quot c g2) in *. set (b1 := Z.quot b g2) in *.
  assert (b1 <> 0) by (intros K; rewrite K in Eb; lia). assert (d1 <> 0) by (intros K; rewrite K in Ed; lia).
  assert (Hbd : b1 * d1 <> 0) by (intro K; apply Z.mul_eq_0 in K; destruct K; contradiction). assert (Hbd' : b * d <> 0) by (intro K; apply Z.mul_eq_0 in K; destruct K; contradiction).
  split.
  - split; [exact Hbd|]. cbn [fst snd]. apply rp. apply rel_prime_mult; apply rel_prime_sym; apply rel_prime_mult; apply rel_prime_sym.
    + eapply rp_divide_l; [eapply rp_divide; [apply rp; exact Rx|exists g2; lia]|exists g1; lia].
    + apply rp. exact R2.
    + apply rp. exact R1.
    + eapply rp_divide_l; [eapply rp_divide; [apply rp; exact Ry|exists g1; lia]|exists g2; lia].
  - rewrite value_mul by assumption. apply value_eq; try assumption. clearbody a1 b1 c1 d1. rewrite Ea, Eb, Ec, Ed. ring.
Qed.
Lemma div_ok x y z : reduced x -> reduced y -> fst y <> 0 -> 0 < snd x -> div x y = Some z -> canonical z /\ (value z == value x / value y)%Q.
Proof.
  destruct x as [a b], y as [c d]. intros [Hb Rx] [Hd Ry] Hc Hp H. cbn [fst snd] in *. unfold div in H. destruct (Z.eqb_spec a 0) as [->|Ha].
  - injection H as <-. split; [split; cbn; [exact Hp|exact Rx]|]. rewrite value_div by assumption. apply value_eq; [assumption| |ring]. intro K; apply Z.mul_eq_0 in K; destruct K; contradiction.
  - inv_bind. rename z0 into g1, z1 into g2.
    apply gcd_ok in E. apply gcd_ok in E0. apply cdiv_some in E1 as [? ->]. apply cdiv_some in E2 as [? ->]. apply chk_some in E3 as [-> _]. apply cdiv_some in E4 as [? ->]. apply cdiv_some in E5 as [? ->]. apply chk_some in E6 as [-> _].
    destruct (abs_divide _ _ _ E) as [D1a D1c]. destruct (abs_divide _ _ _ E0) as [D2d D2b].
    pose proof (gcd_quot _ _ _ E ltac:(assumption)) as R1. pose proof (gcd_quot _ _ _ E0 ltac:(assumption)) as R2.
    pose proof (quot_exact a g1 ltac:(assumption) D1a) as Ea. pose proof (quot_exact c g1 ltac:(assumption) D1c) as Ec.
    pose proof (quot_exact d g2 ltac:(assumption) D2d) as Ed. pose proof (quot_exact b g2 ltac:(assumption) D2b) as Eb.
    set (a1 := Z.quot a g1) in *. set (c1 := Z.quot c g1) in *. set (d1 := Z.quot d g2) in *. set (b1 := Z.quot b g2) in *.
    assert (b1 <> 0) by (intros K; rewrite K in Eb; lia). assert (d1 <> 0) by (intros K; rewrite K in Ed; lia). assert (c1 <> 0) by (intros K; rewrite K in Ec; lia).
    assert (Hbc : b1 * c1 <> 0) by (intro K; apply Z.mul_eq_0 in K; destruct K; contradiction). assert (Hbc' : b * c <> 0) by (intro K; apply Z.mul_eq_0 in K; destruct K; contradiction).
    assert (R : Z.gcd (a1 * d1) (b1 * c1) = 1).
    { apply rp. apply rel_prime_mult; apply rel_prime_sym; apply rel_prime_mult; apply rel_prime_sym.
      - eapply rp_divide_l; [eapply rp_divide; [apply rp; exact Rx|exists g2; lia]|exists g1; lia].
      - apply rel_prime_sym. apply rp. rewrite Z.gcd_comm. exact R2.
      - apply rp. exact R1.
      - eapply rp_divide_l; [eapply rp_divide; [apply rel_prime_sym; apply rp; exact Ry|exists g1; lia]|exists g2; lia]. }
    assert (V : (value ((a1 * d1)%Z, (b1 * c1)%Z) == value (a, b) / value (c, d))%Q).
    { rewrite value_div by assumption. apply value_eq; try assumption. clearbody a1 b1 c1 d1. rewrite Ea, Eb, Ec, Ed. ring. }
    destruct (Z.ltb_spec (b1 * c1) 0).
    + inv_bind. apply chk_some in E1 as [-> _]. apply chk_some in E2 as [-> _]. injection H as <-. split; [split; cbn [fst snd]; [lia|rewrite Z.gcd_opp_l, Z.gcd_opp_r; exact R]|].
      rewrite <- V. apply value_eq; [lia|lia|ring].
    + injection H as <-. split; [split; cbn [fst snd]; [lia|exact R]|exact V].
Qed.
Lemma canon_ok n d z : d <> 0 -> make n d = Some z -> canonical z /\ (value z == value (n, d))%Q.
Proof.
  intros Hd H. unfold make, canonicalize in H. destruct (Z.eqb_spec d 0); [contradiction|]. destruct (Z.eqb_spec n 0) as [->|Hn].
  - injection H as <-. split; [split; cbn; [lia|reflexivity]|]. apply value_eq; [lia|assumption|ring].
  - inv_bind. rename z0 into g. apply gcd_ok in E. apply cdiv_some in E0 as [? ->]. apply cdiv_some in E1 as [? ->]. destruct (abs_divide _ _ _ E) as [Dn Dd].
    pose proof (quot_exact n g ltac:(assumption) Dn) as En. pose proof (quot_exact d g ltac:(assumption) Dd) as Ed. pose proof (gcd_quot _ _ _ E ltac:(assumption)) as R.
    set (n1 := Z.quot n g) in *. set (d1 := Z.quot d g) in *. assert (d1 <> 0) by (intros K; rewrite K in Ed; lia).
    assert (V : (value (n1, d1) == value (n, d))%Q) by (apply value_eq; try assumption; clearbody n1 d1; rewrite En, Ed; ring).
    destruct (Z.ltb_spec d1 0).
    + inv_bind. apply chk_some in E0 as [-> _]. apply chk_some in E1 as [-> _]. injection H as <-. split; [split; cbn [fst snd]; [lia|rewrite Z.gcd_opp_l, Z.gcd_opp_r; exact R]|].
      rewrite <- V. apply value_eq; [lia|lia|ring].
    + injection H as <-. split; [split; cbn [fst snd]; [lia|exact R]|exact V].
Qed.
Lemma neg_ok x z : snd x <> 0 -> neg x = Some z -> canonical z /\ (value z == - value x)%Q.
Proof.
  destruct x as [n d]. cbn [snd]. intros Hd H. unfold neg in H. cbn [fst snd] in H. inv_bind. apply chk_some in E as [-> _]. destruct (canon_ok _ _ _ Hd H) as [C V]. split; [exact C|].
  rewrite V. symmetry. apply value_opp. exact Hd.
Qed.
Lemma eqb_ok x y : canonical x -> canonical y -> (eqb x y = true <-> (value x == value y)%Q).
Proof.
  destruct x as [a b], y as [c d]. intros [Hb Rx] [Hd Ry]. cbn [fst snd] in *. unfold eqb. cbn [fst snd]. rewrite value_eq by lia. split; intro H.
  - assert (a = c /\ b = d) as [-> ->] by lia. reflexivity.
  - assert (Dbd : (b | d)) by (apply (Z.gauss b a d); [exists c; lia|rewrite Z.gcd_comm; exact Rx]).
    assert (Ddb : (d | b)) by (apply (Z.gauss d c b); [exists a; lia|rewrite Z.gcd_comm; exact Ry]).
    assert (b = d) by (apply Z.divide_antisym_nonneg; lia || assumption). subst d. assert (a = c) by (apply (Z.mul_reg_r _ _ b); lia). lia.
Qed.
