(** Weakly separated components: what fast_expansion_sum_zeroelim keeps. *)
From Coq Require Import Reals Lra Lia.
From Flocq Require Import Core Pff2Flocq Relative.
From Verif Require Import Prelude PredModel PredSpec PredProofs PredProofs2 PredProofs3 PredProofs4.
Open Scope R_scope.

(** |x| is at most half of the lowest bit of y *)
Definition wsep (x y : R) : Prop := x = 0 \/ exists k, Rabs x <= bp k /\ multiple (k + 1) y.
Lemma sep_wsep x y : sep x y -> wsep x y.
Proof. intros [H|(k & H1 & H2)]; [left; exact H|]. right. exists k. split; [lra|exact H2]. Qed.
Lemma wsep_0 x : wsep x 0. Proof. apply sep_wsep, sep_0. Qed.
Lemma wsep_le x x' y : Rabs x' <= Rabs x -> wsep x y -> wsep x' y.
Proof.
  intros Hx [->|(k & H1 & H2)].
  - left. rewrite Rabs_R0 in Hx. unfold Rabs in Hx. destruct (Rcase_abs x'); lra.
  - right. exists k. split; [lra|exact H2].
Qed.
Lemma wsep_add x y z : wsep x y -> wsep x z -> wsep x (y + z).
Proof.
  intros [->|(k & H1 & H2)]; [left; reflexivity|]. intros [->|(l & H3 & H4)]; [left; reflexivity|].
  right. exists (Z.min k l). split.
  - destruct (Z.min_spec k l) as [[_ ->]|[_ ->]]; assumption.
  - apply mul_add; [apply mul_weaken with (2 := H2)|apply mul_weaken with (2 := H4)]; lia.
Qed.
Lemma wsep_opp x y : wsep x y -> wsep x (- y).
Proof. intros [->|(k & H1 & H2)]; [left; reflexivity|]. right. exists k. split; [exact H1|apply mul_opp, H2]. Qed.
Lemma wsep_sub x y z : wsep x y -> wsep x z -> wsep x (y - z).
Proof. intros H1 H2. apply wsep_add; [exact H1|apply wsep_opp, H2]. Qed.
Lemma wsep_rnd x y : wsep x y -> wsep x (rnd y).
Proof. intros [->|(k & H1 & H2)]; [left; reflexivity|]. right. exists k. split; [exact H1|apply rnd_mul, H2]. Qed.
Lemma wsep_half x y : wsep x y -> y <> 0 -> Rabs x <= Rabs y / 2.
Proof.
  intros [->|(k & H1 & H2)] Hy.
  - rewrite Rabs_R0. pose proof (Rabs_pos_lt y Hy). lra.
  - pose proof (mul_ge _ _ H2 Hy) as H. rewrite bpow_plus in H. cbn in H. lra.
Qed.

(** the lowest bit *)
Definition lowbit (l : Z) (y : R) : Prop := multiple l y /\ ~ multiple (l + 1) y.
Lemma lowbit_ex k y : multiple k y -> y <> 0 -> exists l, (k <= l)%Z /\ lowbit l y.
Proof.
  intros [n Hn] Hy. remember (Z.abs_nat n) as N eqn:HN. revert k n y Hn Hy HN.
  induction N as [N IH] using (well_founded_induction lt_wf). intros k n y Hn Hy HN.
  assert (N0 : n <> 0%Z) by (intros ->; apply Hy; rewrite Hn; lra).
  destruct (Z.Even_or_Odd n) as [[q Hq]|[q Hq]].
  - destruct (IH (Z.abs_nat q) ltac:(lia) (k + 1)%Z q y) as (l & Hl & L); [|exact Hy|reflexivity|].
    + rewrite Hn, Hq, mult_IZR, (Z.add_comm k 1), bpow_plus. cbn. ring.
    + exists l. split; [lia|exact L].
  - exists k. split; [lia|]. split; [exists n; exact Hn|]. intros [p Hp].
    rewrite Hn, (Z.add_comm k 1), bpow_plus in Hp.
    assert (E : IZR n = IZR (2 * p)).
    { rewrite mult_IZR. apply Rmult_eq_reg_r with (bp k); [|pose proof (bp_pos k); lra]. rewrite Hp. cbn. ring. }
    apply eq_IZR in E. lia.
Qed.
Lemma lowbit_max l k y : lowbit l y -> multiple k y -> (k <= l)%Z.
Proof.
  intros [H1 H2] Hk. destruct (Z_le_gt_dec k l) as [H|H]; [exact H|]. exfalso. apply H2. apply mul_weaken with (2 := Hk). lia.
Qed.
Lemma wsep_lowbit x y l : wsep x y -> lowbit l y -> Rabs x <= bp l / 2.
Proof.
  intros [->|(k & H1 & H2)] Hl.
  - rewrite Rabs_R0. pose proof (bp_pos l). lra.
  - pose proof (lowbit_max _ _ _ Hl H2) as H. apply (bpow_le radix2) in H. rewrite bpow_plus in H. cbn in H. lra.
Qed.
Lemma sep_lowbit x y l : sep x y -> lowbit l y -> Rabs x < bp l / 2.
Proof.
  intros [->|(k & H1 & H2)] Hl.
  - rewrite Rabs_R0. pose proof (bp_pos l). lra.
  - pose proof (lowbit_max _ _ _ Hl H2) as H. apply (bpow_le radix2) in H. rewrite bpow_plus in H. cbn in H. lra.
Qed.

(** sums of absolute values; lists with the largest component first *)
Definition asum (l : list R) : R := total (map Rabs l).
Lemma asum_pos l : 0 <= asum l.
Proof. induction l as [|x l IH]; cbn; [lra|]. pose proof (Rabs_pos x). unfold asum, total in IH. lra. Qed.
Lemma asum_cons x l : asum (x :: l) = Rabs x + asum l. Proof. reflexivity. Qed.
Fixpoint wchain (l : list R) : Prop :=
  match l with [] => True | x :: older => Forall (fun z => wsep z x) older /\ wchain older end.
Fixpoint schain (l : list R) : Prop :=
  match l with [] => True | x :: older => Forall (fun z => sep z x) older /\ schain older end.
Lemma schain_wchain l : schain l -> wchain l.
Proof.
  induction l as [|x l IH]; cbn; [trivial|]. intros [H1 H2]. split; [|apply IH, H2].
  eapply Forall_impl; [|exact H1]. intros z. apply sep_wsep.
Qed.
Lemma wchain_sum l : wchain l -> (forall x, In x l -> multiple (-1074) x) -> forall y lam, lowbit lam y -> Forall (fun z => wsep z y) l ->
  asum l <= bp lam * (1 - bp (- Z.of_nat (length l))).
Proof.
  induction l as [|x l IH]; intros W M y lam Hl HF.
  - cbn. lra.
  - cbn [wchain] in W. destruct W as [W1 W2]. inversion HF as [|? ? Hx HF']; subst. rewrite asum_cons.
    cbn [length]. rewrite Nat2Z.inj_succ. replace (- Z.succ (Z.of_nat (length l)))%Z with (-1 + - Z.of_nat (length l))%Z by lia.
    rewrite bpow_plus. change (bp (-1)) with (/ 2). set (n := bp (- Z.of_nat (length l))) in *. pose proof (bp_pos lam).
    assert (n0 : 0 < n) by apply bp_pos.
    pose proof (wsep_lowbit _ _ _ Hx Hl) as Bx.
    destruct (Req_dec x 0) as [->|X0].
    + rewrite Rabs_R0. pose proof (IH W2 (fun z Hz => M z (or_intror Hz)) y lam Hl HF') as A. nra.
    + destruct (lowbit_ex _ _ (M x (or_introl eq_refl)) X0) as (lx & _ & Lx).
      pose proof (IH W2 (fun z Hz => M z (or_intror Hz)) x lx Lx W1) as A.
      pose proof (mul_ge _ _ (proj1 Lx) X0) as Bl. pose proof (bp_pos lx).
      assert (n1 : n <= 1) by (unfold n; change 1 with (bp 0); apply bpow_le; lia).
      nra.
Qed.
Lemma schain_sum l : schain l -> forall y lam, lowbit lam y -> Forall (fun z => sep z y) l -> asum l < bp lam / 2.
Proof.
  intros S y lam Hl HF. 
  assert (G : sep (asum l) y).
  { clear Hl. revert y HF. induction l as [|x l IH]; intros y HF; [left; reflexivity|]. rewrite asum_cons.
    cbn [schain] in S. destruct S as [S1 S2]. inversion HF as [|? ? Hx HF']; subst. rewrite Rplus_comm.
    assert (Ab : forall a b, sep a b -> sep a (Rabs b)) by (intros a b Hab; unfold Rabs; destruct (Rcase_abs b); [apply sep_opp|]; exact Hab).
    apply sep_trans_add; [apply Ab, (IH S2 x S1)| |apply (IH S2 y HF')].
    apply sep_le with x; [rewrite Rabs_Rabsolu; lra|exact Hx]. }
  pose proof (sep_lowbit _ _ _ G Hl) as B. rewrite Rabs_pos_eq in B by apply asum_pos. exact B.
Qed.

(** rounding error from a bound of the magnitude *)
Lemma err_bound j x : (-1020 <= j)%Z -> multiple (-1074) x -> Rabs x <= bp j -> Rabs (x - rnd x) <= bp (j - 54).
Proof.
  intros Hj Hm Hx. destruct (Req_dec (Rabs x) (bp j)) as [E|E].
  - rewrite rnd_id; [rewrite Rminus_eq_0, Rabs_R0; left; apply bp_pos|].
    apply fmt_of_mul with (j - 53)%Z; [lia| |right; rewrite E; f_equal; lia].
    apply mul_weaken with j; [lia|]. unfold Rabs in E. destruct (Rcase_abs x).
    + replace x with (- bp j) by lra. apply mul_opp, mul_bp.
    + rewrite E. apply mul_bp.
  - destruct (Req_dec x 0) as [->|X0]; [rewrite rnd_0, Rminus_eq_0, Rabs_R0; left; apply bp_pos|].
    rewrite Rabs_minus_sym. eapply Rle_trans; [apply error_le_half_ulp; typeclasses eauto|].
    rewrite ulp_neq_0 by exact X0. unfold cexp, FLT_exp.
    assert (Mg : (mag radix2 x <= j)%Z) by (apply mag_le_bpow; [exact X0|lra]).
    replace (bp (j - 54)) with (/ 2 * bp (j - 53)) by (replace (j - 54)%Z with (-1 + (j - 53))%Z by lia; rewrite bpow_plus; reflexivity).
    apply Rmult_le_compat_l; [lra|]. apply bpow_le. lia.
Qed.

(** the step of the merge: the roundoff lies below the next component of the other expansion *)
Lemma core Q g r pg pr lg lr al be :
  is_double Q -> is_double g -> is_double r -> multiple (-960) Q -> multiple (-960) g -> multiple (-960) r -> g <> 0 -> r <> 0 -> Rabs g <= Rabs r ->
  lowbit lg g -> lowbit lr r -> 0 <= pg <= bp lg * al -> 0 <= pr <= bp lr * be ->
  (al = 1 - bp (-16) /\ be = / 2 \/ al = / 2 /\ be = 1 - bp (-16)) ->
  Rabs Q <= (1 + bp (-44)) * (pg + pr) -> wsep ((Q + g) - rnd (Q + g)) r.
Proof.
  intros FQ Fg Fr MQ Mg Mr G0 R0 Hgr Lg Lr Hpg Hpr Hab HQ.
  set (m := (mag radix2 r - 1)%Z).
  assert (Br : bp m <= Rabs r < bp (m + 1)).
  { unfold m. destruct (mag radix2 r) as [e He]. cbn. replace (e - 1 + 1)%Z with e by lia. apply He, R0. }
  assert (Hm : (-960 <= m)%Z).
  { pose proof (mul_ge _ _ Mr R0) as H. assert (-960 < m + 1)%Z by (apply lt_bpow with radix2; lra). lia. }
  assert (Mr52 : multiple (m - 52) r).
  { pose proof (fmt_mul_cexp r Fr) as H. apply mul_weaken with (2 := H). unfold cexp, FLT_exp, m. lia. }
  pose proof (lowbit_max _ _ _ Lr Mr52) as Hlr.
  assert (Hlr2 : (lr <= m)%Z).
  { pose proof (mul_ge _ _ (proj1 Lr) R0). assert (lr < m + 1)%Z by (apply lt_bpow with radix2; lra). lia. }
  assert (Hlg : (lg <= m)%Z).
  { pose proof (mul_ge _ _ (proj1 Lg) G0). assert (lg < m + 1)%Z by (apply lt_bpow with radix2; lra). lia. }
  assert (Hs : multiple (-1074) (Q + g)) by (apply mul_weaken with (-960)%Z; [lia|apply mul_add; assumption]).
  assert (Bm1 : bp (m + 1) = 2 * bp m) by (rewrite Z.add_comm, bpow_plus; cbn; lra).
  assert (Bm2 : bp (m + 2) = 4 * bp m) by (rewrite Z.add_comm, bpow_plus; cbn; lra).
  assert (Bg : Rabs g <= 2 * bp m - bp lg).
  { assert (M : multiple lg (bp (m + 1) - Rabs g)).
    { apply mul_sub; [apply mul_weaken with (m + 1)%Z; [lia|apply mul_bp]|].
      unfold Rabs. destruct (Rcase_abs g); [apply mul_opp|]; apply Lg. }
    pose proof (mul_ge _ _ M ltac:(lra)) as K. rewrite Rabs_pos_eq in K by lra. lra. }
  pose proof (Rabs_triang Q g) as Tr. pose proof (bp_pos lg) as P1. pose proof (bp_pos lr) as P2. pose proof (bp_pos m) as P3.
  pose proof (bpow_le radix2 _ _ Hlg) as Q1. pose proof (bpow_le radix2 _ _ Hlr2) as Q2.
  assert (N16 : bp (-16) = / 65536) by (cbn; lra). assert (N44 : bp (-44) = / 17592186044416) by (cbn; lra). rewrite N16, N44 in *.
  destruct (Z.eq_dec lr (m - 52)) as [El|El].
  - (* r has a full significand *)
    assert (B52 : bp lr = bp m * / 4503599627370496) by (rewrite El; unfold Z.sub; rewrite bpow_plus; cbn; lra).
    assert (B53 : bp (m - 53) = bp m * / 9007199254740992) by (unfold Z.sub; rewrite bpow_plus; cbn; lra).
    right. exists (m - 53)%Z. split; [|replace (m - 53 + 1)%Z with (m - 52)%Z by lia; exact Mr52].
    destruct (Rle_lt_dec (Rabs (Q + g)) (bp (m + 1))) as [W|W].
    + replace (m - 53)%Z with (m + 1 - 54)%Z by lia. apply err_bound; [lia|exact Hs|exact W].
    + assert (W2 : Rabs (Q + g) <= 2 * bp m + bp (m - 53)).
      { destruct (Rlt_le_dec (Rabs g) (bp m)) as [Gs|Gs].
        - rewrite B53, B52 in *. destruct Hab as [[-> ->]|[-> ->]]; nra.
        - assert (Hlg2 : bp lr <= bp lg).
          { apply bpow_le. rewrite El. apply (lowbit_max _ _ _ Lg).
            pose proof (fmt_mul_cexp g Fg) as H. apply mul_weaken with (2 := H). unfold cexp, FLT_exp.
            assert (m + 1 <= mag radix2 g)%Z; [|lia]. apply mag_ge_bpow. replace (m + 1 - 1)%Z with m by lia. exact Gs. }
          rewrite B53, B52 in *. destruct Hab as [[-> ->]|[-> ->]]; nra. }
      assert (FB : is_double (bp (m + 1))) by (apply generic_format_bpow; unfold FLT_exp; lia).
      destruct (Rle_lt_dec 0 (Q + g)) as [Sg|Sg].
      * pose proof (rnd_nearest (Q + g) (bp (m + 1)) FB) as Nr. rewrite Rabs_minus_sym.
        rewrite (Rabs_pos_eq (Q + g)) in * by lra. rewrite (Rabs_left1 (bp (m + 1) - (Q + g))) in Nr by lra. lra.
      * pose proof (rnd_nearest (Q + g) (- bp (m + 1)) (fmt_opp _ FB)) as Nr. rewrite Rabs_minus_sym.
        rewrite (Rabs_left (Q + g)) in * by lra. rewrite (Rabs_pos_eq (- bp (m + 1) - (Q + g))) in Nr by lra. lra.
  - right. exists (m - 52)%Z. split.
    + replace (m - 52)%Z with (m + 2 - 54)%Z by lia. apply err_bound; [lia|exact Hs|]. rewrite Bm2.
      destruct Hab as [[-> ->]|[-> ->]]; nra.
    + apply mul_weaken with lr; [lia|apply Lr].
Qed.
