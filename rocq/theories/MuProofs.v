(** C96: lemmas. *)
From Coq Require Import Znumtheory.
From Verif Require Import Prelude ItModel MuModel MuSpec.
Open Scope Z_scope.

Lemma limits t : 2 <= bits t -> lo t <= 0 /\ 1 <= hi t /\ (sgn t = true -> lo t = - hi t - 1) /\ (sgn t = false -> lo t = 0).
Proof.
  intros H. unfold lo, hi. assert (A : 2 ^ 1 <= 2 ^ (bits t - 1)) by (apply Z.pow_le_mono_r; lia). assert (B : 2 ^ 2 <= 2 ^ bits t) by (apply Z.pow_le_mono_r; lia).
  change (2 ^ 1) with 2 in A. change (2 ^ 2) with 4 in B. destruct (sgn t); repeat split; intros; try discriminate; lia.
Qed.
Lemma arith_fits t z : fits t z -> 0 <= bits t -> arith t z = Some z.
Proof.
  unfold fits, arith. intros F B. destruct (sgn t) eqn:S.
  - replace (lo t <=? z) with true by (symmetry; apply Z.leb_le; lia). replace (z <=? hi t) with true by (symmetry; apply Z.leb_le; lia). reflexivity.
  - unfold lo, hi in F. rewrite S in F. rewrite Z.mod_small by lia. reflexivity.
Qed.
Lemma arith_signed t z : sgn t = true -> arith t z = if (lo t <=? z) && (z <=? hi t) then Some z else None.
Proof. intros S. unfold arith. now rewrite S. Qed.
Lemma arith_mul t x y c d : arith t x = Some c -> arith t y = Some d -> arith t (c * d) = arith t (x * y).
Proof.
  unfold arith. destruct (sgn t).
  - destruct (_ && _); [|discriminate]. intros [= <-]. destruct (_ && _); [|discriminate]. now intros [= <-].
  - intros [= <-] [= <-]. now rewrite <- Zmult_mod.
Qed.

(** gcd *)
Lemma gcd_loop_ok t : 2 <= bits t -> forall fuel u v, (Z.abs_nat v < fuel)%nat -> fits t u -> fits t v -> ~ (sgn t = true /\ (u = lo t /\ v = -1 \/ u = -1 /\ v = lo t)) ->
  exists g, gcd_loop fuel t u v = Val g /\ is_gcd u v g /\ fits t g /\ (0 <= u -> 0 <= v -> 0 <= g).
Proof.
  intros B. pose proof (limits t B) as (L1 & L2 & L3 & L4).
  induction fuel as [|n IH]; intros u v F U V N; [lia|]. cbn [gcd_loop]. destruct (Z.eqb_spec v 0) as [-> |Z].
  - exists u. split; [reflexivity|]. split; [|split; [exact U|intros; assumption]]. split; [apply Z.divide_refl|]. split; [apply Z.divide_0_r|auto].
  - assert (C : crem t u v = Some (Z.rem u v)).
    { unfold crem. replace (v =? 0) with false by (symmetry; now apply Z.eqb_neq). destruct (sgn t && (u =? lo t) && (v =? -1)) eqn:E; [|reflexivity].
      exfalso. apply andb_prop in E. destruct E as [E E3]. apply andb_prop in E. destruct E as [E1 E2]. apply Z.eqb_eq in E2, E3. apply N. split; [exact E1|]. now left. }
    rewrite C. cbn [of_option bind]. pose proof (Z.rem_bound_abs u v Z) as RB. pose proof (Z.quot_rem' u v) as QR.
    assert (RU : 0 <= u -> 0 <= Z.rem u v) by (intros; now apply Z.rem_nonneg).
    assert (RF : fits t (Z.rem u v)).
    { unfold fits in *. destruct (sgn t); [specialize (L3 eq_refl); lia|]. specialize (L4 eq_refl). pose proof (RU ltac:(lia)). lia. }
    destruct (IH v (Z.rem u v)) as (g & G & (D1 & D2 & D3) & GF & GP); [lia|exact V|exact RF| |].
    { intros (S & [[E1 E2]|[E1 E2]]).
      - (* u rem lo = -1: u is -1 *) specialize (L3 S). unfold fits in U. rewrite E2, E1 in QR. rewrite E2 in RU. generalize dependent (Z.quot u (lo t)). intros q QR.
        assert (q = 0) by (assert (Q : q <= -1 \/ q = 0 \/ 1 <= q) by lia; destruct Q as [Q|[Q|Q]]; [exfalso|exact Q|exfalso; nia]; assert (0 <= u) by nia; specialize (RU ltac:(assumption)); lia).
        assert (u = -1) by (subst q; lia). apply N. split; [exact S|]. right. split; assumption.
      - specialize (L3 S). lia. }
    exists g. split; [exact G|]. split; [|split; [exact GF|intros; apply GP; auto]]. split; [|split; [exact D1|]].
    + rewrite QR. apply Z.divide_add_r; [apply Z.divide_mul_l; exact D1|exact D2].
    + intros d H1 H2. apply D3; [exact H2|]. replace (Z.rem u v) with (u - v * Z.quot u v) by lia. apply Z.divide_sub_r; [exact H1|apply Z.divide_mul_l; exact H2].
Qed.
Lemma is_gcd_Z u v g : is_gcd u v g -> Z.abs g = Z.gcd u v.
Proof.
  intros (A & B & C). apply Z.divide_antisym_nonneg; [lia|apply Z.gcd_nonneg| |].
  - apply Z.gcd_greatest; now apply Z.divide_abs_l.
  - apply Z.divide_abs_r, C; [apply Z.gcd_divide_l|apply Z.gcd_divide_r].
Qed.

(** powers *)
Lemma abs_pow b n : 0 <= n -> Z.abs (b ^ n) = Z.abs b ^ n.
Proof. intros. now rewrite Z.abs_pow. Qed.
Lemma pow_defined t b m n : 2 <= bits t -> 0 <= m <= n -> (exists z, arith t (b ^ n) = Some z) -> exists z, arith t (b ^ m) = Some z.
Proof.
  intros B M (z & E). destruct (sgn t) eqn:S; [|unfold arith; rewrite S; eexists; reflexivity].
  pose proof (limits t B) as (L1 & L2 & L3 & _). specialize (L3 S). rewrite arith_signed in * by exact S.
  destruct (Z.leb_spec (lo t) (b ^ n)) as [E1|]; [|discriminate]. destruct (Z.leb_spec (b ^ n) (hi t)) as [E2|]; [|discriminate].
  assert (G : lo t <= b ^ m <= hi t).
  { destruct (Z.eq_dec m n) as [-> |N]; [lia|]. assert (A : Z.abs b <= 1 \/ 2 <= Z.abs b) by lia. destruct A as [A|A].
    - assert (Z.abs (b ^ m) <= 1); [|lia]. rewrite abs_pow by lia. rewrite <- (Z.pow_1_l m) by lia. apply Z.pow_le_mono_l. lia.
    - assert (P : Z.abs (b ^ n) = Z.abs (b ^ m) * Z.abs b ^ (n - m)) by (rewrite !abs_pow by lia; rewrite <- Z.pow_add_r by lia; f_equal; lia).
      assert (Q : 2 <= Z.abs b ^ (n - m)) by (rewrite <- (Z.pow_1_r 2) at 1; transitivity (Z.abs b ^ 1); [rewrite !Z.pow_1_r; exact A|apply Z.pow_le_mono_r; lia]).
      pose proof (Z.abs_nonneg (b ^ m)). assert (2 * Z.abs (b ^ m) <= Z.abs (b ^ n)) by nia. lia. }
  replace (lo t <=? b ^ m) with true by (symmetry; apply Z.leb_le; lia). replace (b ^ m <=? hi t) with true by (symmetry; apply Z.leb_le; lia). eexists; reflexivity.
Qed.
Lemma pow_undefined t b m n : 2 <= bits t -> 0 <= m <= n -> arith t (b ^ m) = None -> arith t (b ^ n) = None.
Proof. intros B M N. destruct (arith t (b ^ n)) eqn:E; [|reflexivity]. destruct (pow_defined t b m n B M) as (w & W); [eauto|congruence]. Qed.
Lemma pow_rec_ok t b0 : 2 <= bits t -> forall fuel p j b v e, 0 < p -> 0 <= j -> 0 <= e -> (Z.to_nat (Z.log2 e) < fuel)%nat ->
  arith t (b0 ^ p) = Some b -> arith t (b0 ^ j) = Some v -> pow_rec fuel t b v e = of_option (arith t (b0 ^ (j + p * e))).
Proof.
  intros B. induction fuel as [|n IH]; intros p j b v e P J E F Eb Ev; [lia|]. cbn [pow_rec]. destruct (Z.ltb_spec 1 e) as [L|L].
  - assert (LG : Z.log2 e = Z.succ (Z.log2 (Z.quot e 2))).
    { rewrite Z.quot_div_nonneg by lia. rewrite <- Z.div2_div. pose proof (Z.div2_odd e). pose proof (Z.div2_nonneg e).
      destruct (Z.odd e) eqn:O; cbn [Z.b2z] in *.
      - rewrite H at 1. apply Z.log2_succ_double. lia.
      - rewrite H at 1. rewrite Z.add_0_r. apply Z.log2_double. lia. }
    assert (LN : 0 <= Z.log2 (Z.quot e 2)) by apply Z.log2_nonneg.
    assert (QE : e = 2 * Z.quot e 2 + Z.land e 1 /\ (Z.land e 1 = 0 \/ Z.land e 1 = 1)).
    { assert (LA : Z.land e 1 = e mod 2) by (apply (Z.land_ones e 1); lia). rewrite LA, Z.quot_div_nonneg by lia. pose proof (Z.div_mod e 2 ltac:(lia)). pose proof (Z.mod_pos_bound e 2 ltac:(lia)). lia. }
    destruct QE as [QE QC]. assert (SQ : arith t (b * b) = arith t (b0 ^ (2 * p))) by (rewrite (arith_mul t _ _ _ _ Eb Eb), <- Z.pow_add_r by lia; do 2 f_equal; lia).
    destruct (Z.eqb_spec (Z.land e 1) 0) as [Z0|Z0].
    + rewrite SQ. destruct (arith t (b0 ^ (2 * p))) as [c|] eqn:C; cbn [of_option bind].
      * rewrite (IH (2 * p) j c v (Z.quot e 2)) by (try assumption; lia). do 3 f_equal. nia.
      * rewrite (pow_undefined t b0 (2 * p) (j + p * e)) by (try assumption; nia). reflexivity.
    + assert (VB : arith t (v * b) = arith t (b0 ^ (j + p))) by (rewrite (arith_mul t _ _ _ _ Ev Eb), <- Z.pow_add_r by lia; reflexivity).
      rewrite SQ. destruct (arith t (b0 ^ (2 * p))) as [c|] eqn:C; cbn [of_option bind]; [|rewrite (pow_undefined t b0 (2 * p) (j + p * e)) by (try assumption; nia); reflexivity].
      rewrite VB. destruct (arith t (b0 ^ (j + p))) as [d|] eqn:D; cbn [of_option bind]; [|rewrite (pow_undefined t b0 (j + p) (j + p * e)) by (try assumption; nia); reflexivity].
      rewrite (IH (2 * p) (j + p) c d (Z.quot e 2)) by (try assumption; lia). do 3 f_equal. nia.
  - destruct (Z.eqb_spec e 1) as [-> |N1].
    + rewrite (arith_mul t _ _ _ _ Ev Eb), <- Z.pow_add_r by lia. do 3 f_equal. lia.
    + assert (e = 0) by lia. subst. rewrite Z.mul_0_r, Z.add_0_r, Ev. reflexivity.
Qed.

(** result types *)
Lemma fits_included a b : 1 <= bits a -> 1 <= bits b ->
  (included a b <-> if sgn a then sgn b = true /\ bits a <= bits b else if sgn b then bits a < bits b else bits a <= bits b).
Proof.
  intros A B. assert (I : included a b <-> lo b <= lo a /\ hi a <= hi b).
  { unfold included, fits. split; [|intros (P & Q) z Z; lia]. intros H. assert (lo a <= hi a).
    { unfold lo, hi. pose proof (Z.pow_pos_nonneg 2 (bits a - 1)). pose proof (Z.pow_pos_nonneg 2 (bits a)). destruct (sgn a); lia. }
    split; apply H; lia. }
  rewrite I. unfold lo, hi. pose proof (Z.pow_pos_nonneg 2 (bits a - 1) ltac:(lia) ltac:(lia)). pose proof (Z.pow_pos_nonneg 2 (bits b - 1) ltac:(lia) ltac:(lia)).
  pose proof (Z.pow_pos_nonneg 2 (bits a) ltac:(lia) ltac:(lia)). pose proof (Z.pow_pos_nonneg 2 (bits b) ltac:(lia) ltac:(lia)).
  pose proof (Z.pow_le_mono_r_iff 2 (bits a - 1) (bits b - 1) ltac:(lia) ltac:(lia)). pose proof (Z.pow_le_mono_r_iff 2 (bits a) (bits b - 1) ltac:(lia) ltac:(lia)).
  pose proof (Z.pow_le_mono_r_iff 2 (bits a) (bits b) ltac:(lia) ltac:(lia)).
  destruct (sgn a), (sgn b); split; intros; try (split; [reflexivity|]); try lia.
Qed.
