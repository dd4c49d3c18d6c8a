(** Rounding to nearest even, multiples of powers of two, error-free transforms. *)
From Coq Require Import Reals Lra Lia.
From Flocq Require Import Core Pff2Flocq Relative.
From Verif Require Import Prelude PredModel PredSpec.
Open Scope R_scope.
Notation bp := (bpow radix2).
Notation fexp64 := (FLT_exp (-1074) 53).
#[export] Instance prec53 : Prec_gt_0 53. Proof. unfold Prec_gt_0; lia. Qed.
#[export] Instance vexp64 : Valid_exp fexp64. Proof. apply FLT_exp_valid. apply prec53. Qed.

Lemma bp_pos k : 0 < bp k. Proof. apply bpow_gt_0. Qed.

(** ** multiples *)
Lemma mul_weaken k l x : (l <= k)%Z -> multiple k x -> multiple l x.
Proof.
  intros Hl [n ->]. exists (n * 2 ^ (k - l))%Z.
  rewrite mult_IZR. replace (IZR (2 ^ (k - l))) with (bp (k - l)).
  - rewrite Rmult_assoc, <- bpow_plus. f_equal. f_equal. lia.
  - rewrite <- IZR_Zpower by lia. reflexivity.
Qed.
Lemma mul_0 k : multiple k 0. Proof. exists 0%Z. lra. Qed.
Lemma mul_opp k x : multiple k x -> multiple k (- x).
Proof. intros [n ->]. exists (- n)%Z. rewrite opp_IZR. lra. Qed.
Lemma mul_add k x y : multiple k x -> multiple k y -> multiple k (x + y).
Proof. intros [n ->] [m ->]. exists (n + m)%Z. rewrite plus_IZR. lra. Qed.
Lemma mul_sub k x y : multiple k x -> multiple k y -> multiple k (x - y).
Proof. intros [n ->] [m ->]. exists (n - m)%Z. rewrite minus_IZR. lra. Qed.
Lemma mul_mul k l x y : multiple k x -> multiple l y -> multiple (k + l) (x * y).
Proof. intros [n ->] [m ->]. exists (n * m)%Z. rewrite mult_IZR, bpow_plus. ring. Qed.
Lemma mul_bp k : multiple k (bp k). Proof. exists 1%Z. lra. Qed.
Lemma mul_IZR n : multiple 0 (IZR n). Proof. exists n. cbn. lra. Qed.
Lemma mul_ge k x : multiple k x -> x <> 0 -> bp k <= Rabs x.
Proof.
  intros [n ->] H. rewrite Rabs_mult, (Rabs_pos_eq (bp k)) by (left; apply bp_pos).
  rewrite <- (Rmult_1_l (bp k)) at 1. apply Rmult_le_compat_r; [left; apply bp_pos|].
  rewrite <- abs_IZR. apply IZR_le.
  destruct (Z.eq_dec n 0) as [E|E]; [subst; exfalso; apply H; lra|lia].
Qed.
Lemma mul_small k x : multiple k x -> Rabs x < bp k -> x = 0.
Proof.
  intros H Hx. destruct (Req_dec x 0) as [E|E]; [exact E|]. pose proof (mul_ge k x H E). lra.
Qed.

(** ** doubles *)
Lemma fmt_mul_cexp x : is_double x -> multiple (cexp radix2 fexp64 x) x.
Proof.
  intros H. unfold is_double in H. exists (Ztrunc (scaled_mantissa radix2 fexp64 x)). exact H.
Qed.
Lemma fmt_mul x : is_double x -> multiple (-1074) x.
Proof.
  intros H. apply mul_weaken with (2 := fmt_mul_cexp x H). unfold cexp, FLT_exp. lia.
Qed.
Lemma fmt_of_mul k x : (-1074 <= k)%Z -> multiple k x -> Rabs x <= bp (k + 53) -> is_double x.
Proof.
  intros Hk Hm Hx. unfold is_double.
  destruct (Req_dec (Rabs x) (bp (k + 53))) as [E|E].
  - unfold Rabs in E. destruct (Rcase_abs x) as [Hn|Hp].
    + replace x with (- bp (k + 53)) by lra. apply generic_format_opp, generic_format_bpow.
      unfold FLT_exp. lia.
    + replace x with (bp (k + 53)) by lra. apply generic_format_bpow. unfold FLT_exp. lia.
  - destruct Hm as [n Hn]. apply generic_format_FLT. exists (Float radix2 n k); cbn.
    + unfold F2R; cbn. exact Hn.
    + assert (Hlt : Rabs (IZR n) < bp 53).
      { rewrite Hn, Rabs_mult, (Rabs_pos_eq (bp k)) in Hx, E by (left; apply bp_pos).
        rewrite (Z.add_comm k 53), bpow_plus in Hx, E. pose proof (bp_pos k). nra. }
      rewrite <- abs_IZR in Hlt. apply lt_IZR. eapply Rlt_le_trans; [exact Hlt|right; reflexivity].
    + exact Hk.
Qed.
Lemma fmt_rnd x : is_double (rnd x).
Proof. unfold is_double, rnd. apply generic_format_round; typeclasses eauto. Qed.
Lemma rnd_id x : is_double x -> rnd x = x.
Proof. intros H. unfold rnd. apply round_generic; [typeclasses eauto|exact H]. Qed.
Lemma rnd_opp x : rnd (- x) = - rnd x.
Proof.
  unfold rnd. apply (round_N_opp_sym (-1074) 53 (fun z => negb (Z.even z))).
  intros z. rewrite Z.even_opp, Z.add_1_r, Z.even_succ, <- Z.negb_even, Bool.negb_involutive. reflexivity.
Qed.
Lemma rnd_0 : rnd 0 = 0. Proof. unfold rnd. apply round_0. typeclasses eauto. Qed.
Lemma rnd_le x y : x <= y -> rnd x <= rnd y.
Proof. intros H. unfold rnd. apply round_le; [apply vexp64|typeclasses eauto|exact H]. Qed.
Lemma fmt_opp x : is_double x -> is_double (- x).
Proof. apply generic_format_opp. Qed.
Lemma fmt_0 : is_double 0. Proof. apply generic_format_0. Qed.
Lemma rnd_mul k x : multiple k x -> multiple k (rnd x).
Proof.
  intros H. destruct (Z_le_gt_dec k (cexp radix2 fexp64 x)) as [Hk|Hk].
  - apply mul_weaken with (1 := Hk). unfold rnd, round.
    eexists. unfold F2R; cbn. reflexivity.
  - rewrite rnd_id; [exact H|]. unfold is_double.
    assert (H' : multiple (cexp radix2 fexp64 x) x) by (apply mul_weaken with (2 := H); lia). destruct H' as [n Hn].
    unfold generic_format, scaled_mantissa.
    assert (Hs : x * bp (- cexp radix2 fexp64 x) = IZR n).
    { rewrite Hn at 1. rewrite Rmult_assoc, <- bpow_plus.
      replace (cexp radix2 fexp64 x + - cexp radix2 fexp64 x)%Z with 0%Z by lia. cbn. lra. }
    rewrite Hs, Ztrunc_IZR. unfold F2R; cbn [Fnum Fexp]. exact Hn.
Qed.
Lemma rnd_nearest x y : is_double y -> Rabs (rnd x - x) <= Rabs (y - x).
Proof.
  intros Hy. destruct (round_N_pt radix2 fexp64 (fun z => negb (Z.even z)) x) as [_ H].
  apply H. exact Hy.
Qed.
Definition u : R := bp (-53).
Lemma u_pos : 0 < u. Proof. apply bp_pos. Qed.
Lemma u_val : u = / 9007199254740992.
Proof. unfold u. cbn. reflexivity. Qed.
Lemma rnd_err x : multiple (-1074) x -> Rabs (rnd x - x) <= u * Rabs x /\ Rabs (rnd x - x) <= u * Rabs (rnd x).
Proof.
  intros Hm. destruct (Rlt_le_dec (Rabs x) (bp (-1021))) as [Hs|Hs].
  - rewrite rnd_id; [|apply fmt_of_mul with (2 := Hm); [lia|left; exact Hs]].
    unfold Rminus. rewrite Rplus_opp_r, Rabs_R0. pose proof u_pos. pose proof (Rabs_pos x). nra.
  - assert (Hu : u = / 2 * bp (- (53) + 1)).
    { unfold u. change (-53)%Z with (-1 + (- (53) + 1))%Z. rewrite bpow_plus. reflexivity. }
    rewrite Hu. assert (Hs' : bp (-1074 + 53 - 1) <= Rabs x).
    { apply Rle_trans with (2 := Hs). apply bpow_le. lia. }
    split.
    + apply (relative_error_N_FLT radix2 (-1074) 53 prec53 (fun z => negb (Z.even z)) x Hs').
    + apply (relative_error_N_FLT_round radix2 (-1074) 53 prec53 (fun z => negb (Z.even z)) x Hs').
Qed.
