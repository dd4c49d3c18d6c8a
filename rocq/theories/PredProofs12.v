(** The notions of PredSpec and those of the proofs; the examples. *)
From Coq Require Import Reals Lra Lia.
From Flocq Require Import Core Pff2Flocq Relative.
From Verif Require Import Prelude PredModel PredSpec PredProofs PredProofs2 PredProofs3 PredProofs4 PredProofs5 PredProofs6 PredProofs7 PredProofs8 PredProofs11.
Open Scope R_scope.

Lemma ascending_cons g x l : ascending g (x :: l) <-> Forall (below g x) l /\ ascending g l.
Proof.
  split.
  - intros H. split.
    + apply Forall_forall. intros y Hy. apply (In_nth _ _ 0) in Hy. destruct Hy as (j & Hj & <-). apply (H 0%nat (S j)). cbn. lia.
    + intros i j Hij. apply (H (S i) (S j)). cbn. lia.
  - intros [H1 H2] i j Hij. cbn [length] in Hij. destruct j as [|j]; [lia|]. destruct i as [|i].
    + cbn. rewrite Forall_forall in H1. apply H1, nth_In. lia.
    + cbn. apply H2. lia.
Qed.
Lemma ascending_nonadj l : ascending 1 l -> nonadj l.
Proof.
  induction l as [|x l IH]; intros H; [exact I|]. apply ascending_cons in H. destruct H as [H1 H2]. split; [exact H1|apply IH, H2].
Qed.
Lemma wfwd_ascending l : wfwd l -> ascending 0 l.
Proof.
  induction l as [|x l IH]; intros H; [intros i j Hij; cbn in Hij; lia|]. destruct H as [H1 H2]. apply ascending_cons. split; [|apply IH, H2].
  apply Forall_forall. rewrite Forall_forall in H1. intros y Hy. destruct (H1 y Hy) as [E|(k & K1 & K2)]; [left; exact E|right].
  exists (k + 1)%Z. split; [|rewrite Z.add_0_r; exact K2]. eapply Rle_lt_trans; [exact K1|]. apply bpow_lt. lia.
Qed.

(** e = (1/2, 2^52 + 2^12), f = (-(2^52 + 2^12 + 3)) *)
Definition big : R := IZR (2 ^ 52 + 2 ^ 12).
Definition ce : list R := [/ 2; big].
Definition cf : list R := [- (big + 3)].
Lemma rint n : (Z.abs n <= 2 ^ 53)%Z -> rnd (IZR n) = IZR n.
Proof. intros H. apply (rnd_id_mul 0 n); [lia|exact H|]. change (bp 0) with 1. lra. Qed.
Lemma counter_value junk : fast_expansion_sum dbl ce cf junk = [/ 2; -3].
Proof.
  assert (B : big = 4503599627374592) by reflexivity.
  assert (P1 : pick_e dbl (/ 2) (- (big + 3)) = true).
  { unfold pick_e. rewrite (proj2 (fgt_false _ _)), (proj2 (fgt_false _ _)) by (cbn; rewrite B; lra). reflexivity. }
  assert (P2 : pick_e dbl big (- (big + 3)) = true).
  { unfold pick_e. rewrite (proj2 (fgt_false _ _)), (proj2 (fgt_false _ _)) by (cbn; rewrite B; lra). reflexivity. }
  assert (T : rnd (big + / 2) = big).
  { pose proof (tie_even (2 ^ 52 + 2 ^ 12) 0 ltac:(lia) eq_refl ltac:(lia)) as H. change (bp 0) with 1 in H. rewrite !Rmult_1_r in H. exact H. }
  assert (H0 : forall x, x = 0 -> rnd x = 0) by (intros x ->; apply rnd_0).
  assert (Hh : rnd (/ 2) = / 2) by (apply (rnd_id_mul (-1) 1); [lia|lia|cbn; lra]).
  assert (F : fast_two_sum dbl big (/ 2) = (big, / 2)).
  { unfold fast_two_sum, fast_two_sum_tail. cbn [dbl fadd fsub]. rewrite T. rewrite (H0 (big - big)) by lra. rewrite Rminus_0_r, Hh. reflexivity. }
  assert (Z3 : rnd (big + - (big + 3)) = -3).
  { replace (big + - (big + 3)) with (-3) by lra. apply (rint (-3)). lia. }
  assert (Zb : rnd (- (big + 3)) = - (big + 3)).
  { replace (- (big + 3)) with (IZR (- (2 ^ 52 + 2 ^ 12 + 3))) by (rewrite B; cbn; lra). apply rint. lia. }
  assert (Zc : rnd big = big) by (apply rint; lia).
  assert (G : two_sum dbl big (- (big + 3)) = (-3, 0)).
  { unfold two_sum, two_sum_tail. cbn [dbl fadd fsub]. rewrite Z3. replace (-3 - big) with (- (big + 3)) by lra. rewrite Zb.
    replace (-3 - - (big + 3)) with big by lra. rewrite Zc. rewrite (H0 (- (big + 3) - - (big + 3))) by lra. rewrite (H0 (big - big)) by lra.
    rewrite (H0 (0 + 0)) by lra. reflexivity. }
  assert (N1 : feq dbl (/ 2) (lit dbl 0) = false) by (apply feq_false; cbn; lra).
  assert (N2 : feq dbl 0 (lit dbl 0) = true) by (apply feq_true; reflexivity).
  assert (N3 : feq dbl (-3) (lit dbl 0) = false) by (apply feq_false; cbn; lra).
  unfold fast_expansion_sum, fast_expansion_sum_state. 
  assert (S1 : start dbl ce cf junk = mkM (/ 2) 1 0 big (- (big + 3)) [] false).
  { unfold start. change (rd junk ce 0) with (/ 2). change (rd junk cf 0) with (- (big + 3)). rewrite P1. reflexivity. }
  rewrite S1. cbv zeta. cbn [men mfn]. rewrite P2. change (hasE ce _ && hasF cf _) with true. cbn iota.
  assert (S2 : take dbl ce cf junk true true (mkM (/ 2) 1 0 big (- (big + 3)) [] false) = mkM big 2 0 junk (- (big + 3)) [/ 2] true).
  { unfold take. cbn [men mQ]. rewrite F. cbn [mei mfi mfn mh bad]. unfold emit. rewrite N1. reflexivity. }
  rewrite S2.
  assert (LB : forall n s, hasE ce s = false -> loop_both dbl ce cf junk n s = s) by (intros [|n] s0 Hs; [reflexivity|cbn [loop_both]; rewrite Hs; reflexivity]).
  assert (LE : forall n s, hasE ce s = false -> loop_e dbl ce cf junk n s = s) by (intros [|n] s0 Hs; [reflexivity|cbn [loop_e]; rewrite Hs; reflexivity]).
  assert (LF : forall n s, hasF cf s = false -> loop_f dbl ce cf junk n s = s) by (intros [|n] s0 Hs; [reflexivity|cbn [loop_f]; rewrite Hs; reflexivity]).
  rewrite LB by reflexivity. rewrite LE by reflexivity.
  assert (S3 : take dbl ce cf junk false false (mkM big 2 0 junk (- (big + 3)) [/ 2] true) = mkM (-3) 2 1 junk junk [/ 2] true).
  { unfold take. cbn [mfn mQ]. rewrite G. cbn [mei mfi men mh bad]. unfold emit. rewrite N2. reflexivity. }
  change (merge_fuel ce cf) with (S 2). change (loop_f dbl ce cf junk (S 2) (mkM big 2 0 junk (- (big + 3)) [/ 2] true)) with
    (loop_f dbl ce cf junk 2 (take dbl ce cf junk false false (mkM big 2 0 junk (- (big + 3)) [/ 2] true))).
  rewrite S3. rewrite LF by reflexivity. cbn [mQ mh]. unfold finish. rewrite N3. reflexivity.
Qed.
Lemma counter_not : ~ strongly_nonoverlapping [/ 2; -3].
Proof.
  intros H. destruct (H 0%nat 1%nat ltac:(cbn; lia)) as [_ [K|[_ [k K]]]]; cbn [nth] in K.
  - destruct K as [K|(k & K1 & n & K2)]; [lra|]. rewrite Rabs_pos_eq in K1 by lra.
    assert (Hk : (-1 < k)%Z) by (apply (lt_bpow radix2); cbn; lra).
    assert (E : (-3 = n * 2 ^ (k + 1))%Z).
    { apply eq_IZR. rewrite mult_IZR. change 2%Z with (radix_val radix2). rewrite IZR_Zpower by lia. exact K2. }
    replace (k + 1)%Z with (Z.succ k) in E by lia. rewrite Z.pow_succ_r in E by lia. lia.
  - rewrite Rabs_left in K by lra. replace (- -3) with 3 in K by lra.
    assert (A : (1 < k)%Z) by (apply (lt_bpow radix2); rewrite <- K; cbn; lra).
    assert (C : (k < 2)%Z) by (apply (lt_bpow radix2); rewrite <- K; cbn; lra). lia.
Qed.
