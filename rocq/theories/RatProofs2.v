From Coq Require Import QArith Znumtheory.
From Verif Require Import Prelude SortModel RatModel RatSpec RatProofs.
Local Open Scope Z_scope.

(** when the denominators stay positive *)
Lemma gcd_loop_pos f : forall u v g, 0 <= u -> 0 <= v -> gcd_loop f u v = Some g -> 0 <= g.
Proof.
  induction f as [|f IH]; intros u v g Hu Hv; cbn [gcd_loop]; destruct (Z.eqb_spec v 0); intro H; try discriminate; try (injection H as <-; assumption).
  inv_bind. apply cmod_some in E as [_ ->]. eapply IH; [| |exact H]; [exact Hv|]. apply Z.rem_nonneg; assumption.
Qed.
Lemma gcd_pos u v g : 0 <= u -> 0 <= v -> gcd u v = Some g -> 0 <= g.
Proof. apply gcd_loop_pos. Qed.
Lemma quot_pos a g : 0 < a -> (g | a) -> 0 < g -> 0 < Z.quot a g.
Proof. intros Ha Hd Hg. pose proof (quot_exact a g ltac:(lia) Hd). destruct (Z.lt_ge_cases 0 (Z.quot a g)); [assumption|]. assert (g * Z.quot a g <= g * 0) by (apply Z.mul_le_mono_nonneg_l; lia). lia. Qed.
Lemma add_canonical x y z : canonical x -> canonical y -> 0 <= fst x -> 0 <= fst y -> add x y = Some z -> canonical z.
Proof.
  intros [Hb Rx] [Hd Ry] Hx Hy H. assert (R : reduced z) by (eapply (addsub_ok false x y z); [split; [lia|assumption]|split; [lia|assumption]|exact H]).
  destruct R as [_ R]. split; [|exact R]. clear R. destruct x as [a b], y as [c d]. cbn [fst snd] in *. unfold add, addsub in H. inv_bind. injection H as <-. cbn [snd].
  rename z0 into g, z6 into g2. pose proof (gcd_pos b d g ltac:(lia) ltac:(lia) E) as Gp. pose proof (gcd_ok _ _ _ E) as G.
  apply cdiv_some in E0 as [? ->]. apply cdiv_some in E1 as [? ->]. apply chk_some in E2 as [-> _]. apply chk_some in E3 as [-> _]. apply chk_some in E4 as [-> _].
  destruct (abs_divide _ _ _ G) as [D1 D2]. pose proof (quot_pos b g ltac:(lia) D1 ltac:(lia)). pose proof (quot_pos d g ltac:(lia) D2 ltac:(lia)).
  assert (Np : 0 <= a * Z.quot d g + c * Z.quot b g) by (apply Z.add_nonneg_nonneg; apply Z.mul_nonneg_nonneg; lia).
  pose proof (fun k => gcd_pos _ _ _ Np k E5) as Gp2. specialize (Gp2 ltac:(lia)). pose proof (gcd_ok _ _ _ E5) as G2.
  apply cdiv_some in E6 as [? ->]. apply cdiv_some in E7 as [? ->]. apply chk_some in E8 as [-> _]. destruct (abs_divide _ _ _ G2) as [D3 D4].
  pose proof (quot_pos d g2 ltac:(lia) ltac:(eapply Z.divide_trans; eassumption) ltac:(lia)). apply Z.mul_pos_pos; assumption.
Qed.
Lemma mul_canonical x y z : canonical x -> canonical y -> 0 <= fst x -> 0 <= fst y -> mul x y = Some z -> canonical z.
Proof.
  intros [Hb Rx] [Hd Ry] Hx Hy H. assert (R : reduced z) by (eapply (mul_ok x y z); [split; [lia|assumption]|split; [lia|assumption]|exact H]).
  destruct R as [_ R]. split; [|exact R]. clear R. destruct x as [a b], y as [c d]. cbn [fst snd] in *. unfold mul in H. inv_bind. injection H as <-. cbn [snd].
  rename z0 into g1, z1 into g2. pose proof (gcd_pos a d g1 ltac:(lia) ltac:(lia) E) as G1p. pose proof (gcd_ok _ _ _ E) as G1. pose proof (gcd_pos c b g2 ltac:(lia) ltac:(lia) E0) as G2p. pose proof (gcd_ok _ _ _ E0) as G2.
  apply cdiv_some in E1 as [? ->]. apply cdiv_some in E2 as [? ->]. apply cdiv_some in E4 as [? ->]. apply cdiv_some in E5 as [? ->]. apply chk_some in E6 as [-> _].
  destruct (abs_divide _ _ _ G1) as [_ D1]. destruct (abs_divide _ _ _ G2) as [_ D2].
  apply Z.mul_pos_pos; apply quot_pos; lia || assumption.
Qed.

(** no overflow when the operands fit in 32 bits *)
Lemma quot_abs_le a g : g <> 0 -> Z.abs (Z.quot a g) <= Z.abs a.
Proof.
  intro Hg. rewrite <- Z.quot_abs by assumption. rewrite Z.quot_div_nonneg by lia. apply Z.div_le_upper_bound; [lia|].
  assert (1 * Z.abs a <= Z.abs g * Z.abs a) by (apply Z.mul_le_mono_nonneg_r; lia). lia.
Qed.
Lemma cdiv_ok a b : inr a -> b <> 0 -> cdiv a b = Some (Z.quot a b).
Proof. intros Ha Hb. unfold cdiv. destruct (Z.eqb_spec b 0); [contradiction|]. apply chk_ok. pose proof (quot_range a b Ha Hb). lia. Qed.
Lemma mul_bound a b : Z.abs a < 2 ^ 31 -> Z.abs b < 2 ^ 31 -> Z.abs (a * b) < 2 ^ 62.
Proof. intros Ha Hb. rewrite Z.abs_mul. assert (Z.abs a * Z.abs b <= (2 ^ 31 - 1) * (2 ^ 31 - 1)) by (apply Z.mul_le_mono_nonneg; lia). lia. Qed.
Lemma gcd_some u v : inr u -> inr v -> u <> 0 \/ v <> 0 -> exists g, gcd u v = Some g /\ g <> 0 /\ (g | u) /\ (g | v).
Proof.
  intros Hu Hv Hn. destruct (gcd_total u v Hu Hv) as [g E]. exists g. pose proof (gcd_ok _ _ _ E) as G. split; [exact E|]. split; [|apply abs_divide; exact G].
  intros ->. change (Z.abs 0) with 0 in G. symmetry in G. apply Z.gcd_eq_0 in G. lia.
Qed.
Lemma addsub_total s x y : small (2 ^ 31) x -> small (2 ^ 31) y -> snd x <> 0 -> snd y <> 0 -> exists z, addsub s x y = Some z.
Proof.
  destruct x as [a b], y as [c d]. intros [Ha Hb] [Hc Hd] Nb Nd. cbn [fst snd] in *. unfold addsub.
  destruct (gcd_some b d) as (g & -> & Ng & Db & Dd); [unfold inr; lia|unfold inr; lia|auto|]. cbn [bind].
  rewrite !cdiv_ok by (unfold inr; lia || assumption). cbn [bind]. pose proof (quot_abs_le b g Ng). pose proof (quot_abs_le d g Ng).
  pose proof (quot_exact d g Ng Dd) as Ed. pose proof (quot_exact b g Ng Db) as Eb. set (b1 := Z.quot b g) in *. set (d1 := Z.quot d g) in *.
  pose proof (mul_bound a d1 ltac:(lia) ltac:(lia)). pose proof (mul_bound c b1 ltac:(lia) ltac:(lia)). rewrite !chk_ok by (destruct s; lia). cbn [bind].
  set (N := if s then a * d1 - c * b1 else a * d1 + c * b1). rewrite chk_ok by (subst N; destruct s; lia). cbn [bind].
  assert (Z.abs g <= Z.abs d) by (apply Z.divide_abs_l, Z.divide_abs_r in Dd; apply Z.divide_pos_le in Dd; lia).
  destruct (gcd_some N g) as (g2 & -> & Ng2 & Dn2 & Dg2); [subst N; unfold inr; destruct s; lia|unfold inr; lia|auto|]. cbn [bind].
  rewrite !cdiv_ok by ((subst N; unfold inr; destruct s; lia) || assumption). cbn [bind]. pose proof (quot_abs_le d g2 Ng2).
  pose proof (mul_bound b1 (Z.quot d g2) ltac:(lia) ltac:(lia)). rewrite chk_ok by lia. cbn [bind]. eauto.
Qed.
Lemma mul_total x y : small (2 ^ 31) x -> small (2 ^ 31) y -> snd x <> 0 -> snd y <> 0 -> exists z, mul x y = Some z.
Proof.
  destruct x as [a b], y as [c d]. intros [Ha Hb] [Hc Hd] Nb Nd. cbn [fst snd] in *. unfold mul.
  destruct (gcd_some a d) as (g1 & -> & Ng1 & _); [unfold inr; lia|unfold inr; lia|auto|]. cbn [bind].
  destruct (gcd_some c b) as (g2 & -> & Ng2 & _); [unfold inr; lia|unfold inr; lia|auto|]. cbn [bind].
  rewrite !cdiv_ok by (unfold inr; lia || assumption). cbn [bind].
  pose proof (quot_abs_le a g1 Ng1). pose proof (quot_abs_le d g1 Ng1). pose proof (quot_abs_le c g2 Ng2). pose proof (quot_abs_le b g2 Ng2).
  pose proof (mul_bound (Z.quot a g1) (Z.quot c g2) ltac:(lia) ltac:(lia)). pose proof (mul_bound (Z.quot b g2) (Z.quot d g1) ltac:(lia) ltac:(lia)).
  repeat (rewrite chk_ok by lia; cbn [bind]). eauto.
Qed.
Lemma div_total x y : small (2 ^ 31) x -> small (2 ^ 31) y -> snd x <> 0 -> snd y <> 0 -> exists z, div x y = Some z.
Proof.
  destruct x as [a b], y as [c d]. intros [Ha Hb] [Hc Hd] Nb Nd. cbn [fst snd] in *. unfold div. destruct (Z.eqb_spec a 0); [eauto|].
  destruct (gcd_some a c) as (g1 & -> & Ng1 & _); [unfold inr; lia|unfold inr; lia|auto|]. cbn [bind].
  destruct (gcd_some d b) as (g2 & -> & Ng2 & _); [unfold inr; lia|unfold inr; lia|auto|]. cbn [bind].
  rewrite !cdiv_ok by (unfold inr; lia || assumption). cbn [bind].
  pose proof (quot_abs_le a g1 Ng1). pose proof (quot_abs_le c g1 Ng1). pose proof (quot_abs_le d g2 Ng2). pose proof (quot_abs_le b g2 Ng2).
  pose proof (mul_bound (Z.quot a g1) (Z.quot d g2) ltac:(lia) ltac:(lia)). pose proof (mul_bound (Z.quot b g2) (Z.quot c g1) ltac:(lia) ltac:(lia)).
  repeat (rewrite chk_ok by lia; cbn [bind]). destruct (_ <? 0); [|eauto]. repeat (rewrite chk_ok by lia; cbn [bind]). eauto.
Qed.

(** comparison by continued fractions *)
Lemma frac_lt q1 q2 r1 r2 d1 d2 : 0 < d1 -> 0 < d2 -> 0 <= r1 < d1 -> 0 <= r2 < d2 -> q1 < q2 -> (q1 * d1 + r1) * d2 < (q2 * d2 + r2) * d1.
Proof.
  intros H1 H2 R1 R2 Q. assert (A : r1 * d2 < d1 * d2) by (apply Z.mul_lt_mono_pos_r; lia). assert (B : 0 <= r2 * d1) by (apply Z.mul_nonneg_nonneg; lia).
  assert (C : (q1 + 1) * (d1 * d2) <= q2 * (d1 * d2)) by (apply Z.mul_le_mono_nonneg_r; lia).
  replace ((q1 * d1 + r1) * d2) with (q1 * (d1 * d2) + r1 * d2) by ring. replace ((q2 * d2 + r2) * d1) with (q2 * (d1 * d2) + r2 * d1) by ring.
  replace ((q1 + 1) * (d1 * d2)) with (q1 * (d1 * d2) + d1 * d2) in C by ring. lia.
Qed.
Fixpoint enough (f : nat) (d r : Z) : Prop := match f with O => r = 0 | S f' => r = 0 \/ enough f' r (Z.rem d r) end.
Lemma enough_n n : forall d r f, 0 <= r < d -> Z.log2 r <= Z.of_nat n -> (2 * n + 2 <= f)%nat -> enough f d r.
Proof.
  induction n as [|n IH]; intros d r f Hr Hl Hf; destruct f as [|[|f]]; try lia; cbn [enough]; destruct (Z.eq_dec r 0) as [|N]; auto; right.
  - assert (r < 2) by (apply Z.log2_lt_cancel; cbn; lia). left. replace r with 1 by lia. apply Z.rem_1_r.
  - destruct (Z.eq_dec (Z.rem d r) 0) as [|N2]; auto. right. pose proof (Z.rem_bound_pos d r ltac:(lia) ltac:(lia)) as B. pose proof (rem_half d r ltac:(lia) N2) as Hh.
    set (r2 := Z.rem r (Z.rem d r)) in *. pose proof (Z.rem_bound_pos r (Z.rem d r) ltac:(lia) ltac:(lia)) as B2. fold r2 in B2.
    destruct (Z.eq_dec r2 0) as [->|N3]; [destruct f; cbn; auto|]. apply IH; [lia| |lia]. pose proof (log2_half r2 r ltac:(lia) ltac:(lia) N3). lia.
Qed.
Lemma cf_loop_ok f : forall rev d1 q1 r1 d2 q2 r2, 0 <= r1 < d1 -> 0 <= r2 < d2 -> inr d1 -> inr d2 -> enough f d1 r1 ->
  cf_loop f rev d1 q1 r1 d2 q2 r2 = Some (if rev then (q2 * d2 + r2) * d1 <? (q1 * d1 + r1) * d2 else (q1 * d1 + r1) * d2 <? (q2 * d2 + r2) * d1).
Proof.
  induction f as [|f IH]; intros rev d1 q1 r1 d2 q2 r2 R1 R2 I1 I2 En.
  all: cbn [cf_loop]; destruct (Z.eqb_spec q1 q2) as [<-|Q]; cbn [negb].
  2, 4: f_equal; destruct (Z.lt_ge_cases q1 q2);
    [pose proof (frac_lt q1 q2 r1 r2 d1 d2 ltac:(lia) ltac:(lia) R1 R2 ltac:(lia)); destruct rev; [transitivity false; [apply Z.ltb_ge; lia|symmetry; apply Z.ltb_ge; lia]|transitivity true; [apply Z.ltb_lt; lia|symmetry; apply Z.ltb_lt; lia]]
    |pose proof (frac_lt q2 q1 r2 r1 d2 d1 ltac:(lia) ltac:(lia) R2 R1 ltac:(lia)); destruct rev; [transitivity true; [apply Z.ltb_lt; lia|symmetry; apply Z.ltb_lt; lia]|transitivity false; [apply Z.ltb_ge; lia|symmetry; apply Z.ltb_ge; lia]]].
  all: replace ((q1 * d1 + r1) * d2) with (q1 * (d1 * d2) + r1 * d2) by ring; replace ((q1 * d2 + r2) * d1) with (q1 * (d1 * d2) + r2 * d1) by ring.
  all: destruct (Z.eqb_spec r1 0) as [->|N1]; cbn [orb negb xorb].
  1, 3: destruct (Z.eqb_spec 0 r2) as [<-|N2]; f_equal; [rewrite !Z.mul_0_l; destruct rev; symmetry; apply Z.ltb_irrefl|];
    assert (0 < r2 * d1) by (apply Z.mul_pos_pos; lia); destruct rev; cbn; symmetry; [apply Z.ltb_ge|apply Z.ltb_lt]; lia.
  - cbn in En. contradiction.
  - destruct (Z.eqb_spec r2 0) as [->|N2].
    + destruct (Z.eqb_spec r1 0); [contradiction|]. f_equal. assert (0 < r1 * d2) by (apply Z.mul_pos_pos; lia). destruct rev; cbn; symmetry; [apply Z.ltb_lt|apply Z.ltb_ge]; lia.
    + rewrite !cdiv_ok, !cmod_in by assumption. cbn [bind].
      pose proof (Z.rem_bound_pos d1 r1 ltac:(lia) ltac:(lia)). pose proof (Z.rem_bound_pos d2 r2 ltac:(lia) ltac:(lia)).
      rewrite IH; [|assumption|assumption|unfold inr in *; lia|unfold inr in *; lia|cbn in En; destruct En; [contradiction|assumption]].
      pose proof (Z.quot_rem' d1 r1) as Q1. pose proof (Z.quot_rem' d2 r2) as Q2.
      replace (Z.quot d1 r1 * r1 + Z.rem d1 r1) with d1 by lia. replace (Z.quot d2 r2 * r2 + Z.rem d2 r2) with d2 by lia. f_equal.
      destruct rev; cbn [negb]; [destruct (Z.ltb_spec (d1 * r2) (d2 * r1))|destruct (Z.ltb_spec (d2 * r1) (d1 * r2))]; symmetry; try apply Z.ltb_lt; try apply Z.ltb_ge; lia.
Qed.
Lemma norm_ok n d : inr n -> 0 < d -> inr d -> exists q r, norm_loop 2 d (Z.quot n d) (Z.rem n d) = Some (q, r) /\ 0 <= r < d /\ n = q * d + r.
Proof.
  intros Hn Hd Id. cbn [norm_loop]. pose proof (rem_abs n d ltac:(lia)) as B. pose proof (Z.quot_rem' n d) as Q. destruct (Z.ltb_spec (Z.rem n d) 0).
  - rewrite chk_ok by (unfold inr in *; lia). cbn [bind]. assert (Qb : Z.quot n d - 1 >= - 2 ^ 63) by (pose proof (quot_range n d Hn ltac:(lia)); lia).
    pose proof (quot_range n d Hn ltac:(lia)). rewrite chk_ok by lia. cbn [bind]. destruct (Z.ltb_spec (Z.rem n d + d) 0); [lia|]. eexists _, _. split; [reflexivity|]. split; lia.
  - eexists _, _. split; [reflexivity|]. split; lia.
Qed.
Lemma value_lt n d n' d' : 0 < d -> 0 < d' -> ((value (n, d) < value (n', d'))%Q <-> n * d' < n' * d).
Proof.
  intros H H'. assert (E : forall a b, 0 < b -> (value (a, b) == a # Z.to_pos b)%Q).
  { intros a b Hb. unfold value. cbn [fst snd]. rewrite (Qmake_Qdiv a (Z.to_pos b)). rewrite Z2Pos.id by assumption. reflexivity. }
  rewrite !E by assumption. unfold Qlt. cbn [Qnum Qden]. rewrite !Z2Pos.id by assumption. reflexivity.
Qed.
Lemma lt_ok x y : small (2 ^ 63) x -> small (2 ^ 63) y -> 0 < snd x -> 0 < snd y -> exists b, lt x y = Some b /\ (b = true <-> (value x < value y)%Q).
Proof.
  destruct x as [n1 d1], y as [n2 d2]. intros [Hn1 Hd1] [Hn2 Hd2] P1 P2. cbn [fst snd] in *. unfold lt.
  rewrite !cdiv_ok, !cmod_in by (unfold inr; lia). cbn [bind].
  destruct (norm_ok n1 d1) as (q1 & r1 & -> & R1 & E1); [unfold inr; lia|exact P1|unfold inr; lia|]. destruct (norm_ok n2 d2) as (q2 & r2 & -> & R2 & E2); [unfold inr; lia|exact P2|unfold inr; lia|].
  cbn [bind fst snd]. rewrite cf_loop_ok; [|assumption|assumption|unfold inr; lia|unfold inr; lia|].
  - eexists. split; [reflexivity|]. rewrite value_lt by assumption. rewrite <- E1, <- E2. apply Z.ltb_lt.
  - unfold gcd_fuel. apply (enough_n (Z.to_nat (Z.log2 (Z.abs d1)))); [exact R1| |lia]. rewrite Z2Nat.id by apply Z.log2_nonneg. apply Z.log2_le_mono. lia.
Qed.
Lemma gt_ok x y : small (2 ^ 63) x -> small (2 ^ 63) y -> canonical x -> canonical y -> exists b, gt x y = Some b /\ (b = true <-> (value y < value x)%Q).
Proof.
  intros Sx Sy Cx Cy. unfold gt. pose proof (eqb_ok x y Cx Cy) as E. destruct (eqb x y).
  - exists false. split; [reflexivity|]. destruct E as [E _]. specialize (E eq_refl). split; [discriminate|]. rewrite E. intro K. exfalso. exact (Qlt_irrefl _ K).
  - destruct (lt_ok x y Sx Sy (proj1 Cx) (proj1 Cy)) as (b & -> & B). cbn [bind]. exists (negb b). split; [reflexivity|]. rewrite negb_true_iff. split; intro K.
    + subst b. destruct (Q_dec (value x) (value y)) as [[L|G]|Q]; [apply B in L; discriminate|exact G|apply E in Q; discriminate].
    + destruct b; [|reflexivity]. exfalso. apply (Qlt_irrefl (value x)). eapply Qlt_trans; [apply B; reflexivity|exact K].
Qed.
