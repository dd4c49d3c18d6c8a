(** init_exact; elements read beyond the end of an expansion; ties, underflow. *)
From Coq Require Import Reals Lra Lia.
From Flocq Require Import Core Pff2Flocq Relative.
From Verif Require Import Prelude PredModel PredSpec PredProofs PredProofs2 PredProofs3 PredProofs4 PredProofs5.
Open Scope R_scope.

(** ** a tie goes to the even neighbour *)
Lemma tie_even n k : (2 ^ 52 <= n < 2 ^ 53)%Z -> Z.even n = true -> (-1074 <= k)%Z -> rnd ((IZR n + / 2) * bp k) = IZR n * bp k.
Proof.
  intros Hn He Hk. set (x := (IZR n + / 2) * bp k).
  assert (B : IZR n * bp k <= x < IZR (n + 1) * bp k).
  { unfold x. pose proof (bp_pos k). rewrite plus_IZR. nra. }
  assert (N1 : IZR (2 ^ 52) <= IZR n) by (apply IZR_le; lia). assert (N2 : IZR (n + 1) <= IZR (2 ^ 53)) by (apply IZR_le; lia).
  assert (M : mag radix2 x = (53 + k)%Z :> Z).
  { apply mag_unique_pos. pose proof (bp_pos k). split.
    - replace (53 + k - 1)%Z with (52 + k)%Z by lia. rewrite bpow_plus. eapply Rle_trans; [|apply B]. apply Rmult_le_compat_r; [lra|exact N1].
    - rewrite bpow_plus. eapply Rlt_le_trans; [apply B|]. apply Rmult_le_compat_r; [lra|exact N2]. }
  unfold rnd, round, F2R. unfold scaled_mantissa, cexp, FLT_exp. rewrite M. replace (Z.max (53 + k - 53) (-1074)) with k by lia. cbn [Fnum Fexp].
  f_equal. f_equal.
  assert (S : x * bp (- k) = IZR n + / 2) by (unfold x; rewrite Rmult_assoc, <- bpow_plus, Z.add_opp_diag_r; cbn; ring).
  rewrite S. unfold ZnearestE, Znearest.
  assert (F : Zfloor (IZR n + / 2) = n) by (apply Zfloor_imp; rewrite plus_IZR; lra). rewrite F.
  replace (IZR n + / 2 - IZR n) with (/ 2) by ring. rewrite Rcompare_Eq by reflexivity. rewrite He. reflexivity.
Qed.
Lemma rnd_one_u : rnd (1 + u) = 1.
Proof.
  pose proof (tie_even (2 ^ 52) (-52) ltac:(lia) eq_refl ltac:(lia)) as H.
  assert (B : bp (-52) = / 4503599627370496) by (cbn; lra). rewrite B in H. rewrite u_val.
  replace (1 + / 9007199254740992) with ((IZR (2 ^ 52) + / 2) * / 4503599627370496) by (cbn; lra). rewrite H. cbn. lra.
Qed.
Lemma rnd_tiny x : Rabs x < bp (-1075) -> rnd x = 0.
Proof.
  intros H. destruct (Req_dec (rnd x) 0) as [E|E]; [exact E|exfalso].
  pose proof (rnd_nearest x 0 fmt_0) as N. rewrite Rminus_0_l, Rabs_Ropp in N.
  assert (M : multiple (-1074) (rnd x)) by (apply fmt_mul; apply fmt_rnd).
  pose proof (mul_ge _ _ M E) as G. change (-1074)%Z with (1 + -1075)%Z in G. rewrite bpow_plus in G. change (bp 1) with 2 in G.
  pose proof (Rabs_triang (rnd x - x) x) as T. replace (rnd x - x + x) with (rnd x) in T by ring.
  lra.
Qed.

(** ** init_exact *)
Definition chk (k : nat) : R := match k with O => 1 | _ => 1 + bp (- Z.of_nat k) end.
Lemma bp_le1 k : (0 <= k)%Z -> bp (- k) <= 1. Proof. intros H. change 1 with (bp 0). apply bpow_le. lia. Qed.
Lemma init_loop_ok n : forall k extra, (n + k = 52)%nat ->
  init_loop dbl (S n + extra) (chk k) (Nat.even k) (bp (- Z.of_nat k)) (bp (Z.of_nat (Nat.div2 (S k)))) = Some (u, spl).
Proof.
  induction n as [|n IH]; intros k extra Hk.
  - assert (k = 52)%nat by lia. subst k. change (1 + extra)%nat with (S extra). cbn [init_loop]. cbn [dbl fmul half lit feq fadd].
    change (Nat.even 52) with true. cbn iota.
    assert (E1 : rnd (bp (- Z.of_nat 52) * / 2) = u).
    { rewrite (rnd_id_mul (-53) 1); [|lia|lia|cbn; lra]. unfold u. cbn. lra. }
    rewrite E1. assert (E2 : rnd (bp (Z.of_nat (Nat.div2 53)) * 2) = bp 27).
    { rewrite (rnd_id_mul 27 1); [|lia|lia|cbn; lra]. cbn. lra. }
    rewrite E2, rnd_one_u. change (Req_bool 1 1) with (feq dbl 1 1). rewrite (proj2 (feq_true 1 1) eq_refl). cbn [negb andb].
    assert (E3 : rnd (bp 27 + 1) = spl). { rewrite (rnd_id_mul 0 (2 ^ 27 + 1)); [|lia|lia|cbn; lra]. reflexivity. }
    rewrite E3. reflexivity.
  - change (S (S n) + extra)%nat with (S (S n + extra)). remember (S n + extra)%nat as F. cbn [init_loop]. cbn [dbl fmul half lit feq fadd]. subst F.
    assert (P2 : bp (- Z.of_nat (S k)) = bp (- Z.of_nat k) * / 2).
    { replace (- Z.of_nat (S k))%Z with (- Z.of_nat k + -1)%Z by lia. rewrite bpow_plus. reflexivity. }
    assert (E1 : rnd (bp (- Z.of_nat k) * / 2) = bp (- Z.of_nat (S k))).
    { rewrite <- P2. apply (rnd_id_mul (- Z.of_nat (S k)) 1); [lia|lia|lra]. }
    rewrite E1.
    assert (E2 : rnd (1 + bp (- Z.of_nat (S k))) = chk (S k)).
    { unfold chk. apply (rnd_id_mul (- Z.of_nat (S k)) (2 ^ Z.of_nat (S k) + 1)); [lia| |].
      - assert (2 ^ Z.of_nat (S k) <= 2 ^ 52)%Z by (apply Z.pow_le_mono_r; lia). assert (0 < 2 ^ Z.of_nat (S k))%Z by (apply Z.pow_pos_nonneg; lia). lia.
      - rewrite plus_IZR, Rmult_plus_distr_r. change 2%Z with (radix_val radix2) at 1. rewrite IZR_Zpower by lia. rewrite <- bpow_plus, Z.add_opp_diag_r. cbn [bpow]. lra. }
    rewrite E2. pose proof (bp_pos (- Z.of_nat (S k))) as Pk.
    assert (N1 : feq dbl (chk (S k)) 1 = false) by (apply feq_false; unfold chk; lra).
    assert (N2 : feq dbl (chk (S k)) (chk k) = false).
    { apply feq_false. unfold chk. rewrite P2 in *. destruct k; [lra|]. pose proof (bp_pos (- Z.of_nat (S k))). lra. }
    cbn [dbl feq] in N1, N2. rewrite N1, N2. cbn [negb andb].
    replace (negb (Nat.even k)) with (Nat.even (S k)) by (rewrite Nat.even_succ, <- Nat.negb_even; reflexivity).
    assert (E3 : (if Nat.even k then rnd (bp (Z.of_nat (Nat.div2 (S k))) * 2) else bp (Z.of_nat (Nat.div2 (S k)))) = bp (Z.of_nat (Nat.div2 (S (S k))))).
    { destruct (Nat.even k) eqn:Ek.
      - apply Nat.even_spec in Ek. destruct Ek as [q ->]. replace (Nat.div2 (S (2 * q))) with q by (symmetry; apply Nat.div2_succ_double).
        replace (Nat.div2 (S (S (2 * q)))) with (S q) by (cbn [Nat.div2]; rewrite Nat.div2_double; reflexivity).
        assert (X : bp (Z.of_nat (S q)) = bp (Z.of_nat q) * 2) by (rewrite Nat2Z.inj_succ, <- Z.add_1_r, bpow_plus; reflexivity).
        rewrite <- X. apply (rnd_id_mul (Z.of_nat (S q)) 1); [lia|lia|lra].
      - assert (O : Nat.odd k = true) by (rewrite <- Nat.negb_even, Ek; reflexivity). apply Nat.odd_spec in O. destruct O as [q ->].
        replace (S (2 * q + 1)) with (2 * S q)%nat by lia. replace (S (2 * S q)) with (S (2 * S q))%nat by lia.
        rewrite Nat.div2_double, Nat.div2_succ_double. reflexivity. }
    rewrite E3. apply IH. lia.
Qed.
Lemma init_exact_ok fuel : (53 <= fuel)%nat -> init_exact dbl fuel = Some (u, spl).
Proof.
  intros H. replace fuel with (53 + (fuel - 53))%nat by lia. apply (init_loop_ok 52 0 (fuel - 53)). reflexivity.
Qed.

(** ** doubles that are not tiny *)
Lemma double_coord x : is_double x -> x = 0 \/ bp (-397) <= Rabs x -> coord (-450) x.
Proof.
  intros F H. split; [exact F|]. destruct (Req_dec x 0) as [->|X0]; [apply mul_0|]. destruct H as [H|H]; [contradiction|].
  unfold is_double, generic_format in F. rewrite F. unfold F2R. cbn [Fnum Fexp].
  assert (G : (-396 <= mag radix2 x)%Z). { apply mag_ge_bpow. exact H. }
  apply mul_weaken with (cexp radix2 (FLT_exp (-1074) 53) x); [unfold cexp, FLT_exp; lia|]. eexists. reflexivity.
Qed.

(** ** reads beyond the end *)
Section Junk.
Context {T : Type} (o : fops T).
Section Two.
Variables (e f : list T) (j1 j2 : T).
Record Rj (s1 s2 : @mst T) : Prop := {
  j_Q : mQ s1 = mQ s2; j_h : mh s1 = mh s2; j_ei : mei s1 = mei s2; j_fi : mfi s1 = mfi s2;
  j_en : (mei s1 < length e)%nat -> men s1 = men s2; j_fn : (mfi s1 < length f)%nat -> mfn s1 = mfn s2 }.
Lemma rd_in (l : list T) i : (i < length l)%nat -> rd j1 l i = rd j2 l i.
Proof. intros H. unfold rd. apply nth_indep, H. Qed.
Lemma take_Rj fast (b : bool) s1 s2 : Rj s1 s2 -> (if b then (mei s1 < length e)%nat else (mfi s1 < length f)%nat) ->
  Rj (take o e f j1 fast b s1) (take o e f j2 fast b s2).
Proof.
  intros [HQ Hh Hei Hfi Hen Hfn] Hb. unfold take. destruct b.
  - rewrite <- HQ, <- Hh, <- Hei, <- Hfi, <- (Hen Hb).
    destruct (if fast then fast_two_sum o (men s1) (mQ s1) else two_sum o (mQ s1) (men s1)) as [q h].
    constructor; cbn; auto. intros L. apply rd_in, L.
  - rewrite <- HQ, <- Hh, <- Hei, <- Hfi, <- (Hfn Hb).
    destruct (if fast then fast_two_sum o (mfn s1) (mQ s1) else two_sum o (mQ s1) (mfn s1)) as [q h].
    constructor; cbn; auto. intros L. apply rd_in, L.
Qed.
Lemma hasE_Rj s1 s2 : Rj s1 s2 -> hasE e s2 = hasE e s1. Proof. intros H. unfold hasE. rewrite (j_ei _ _ H). reflexivity. Qed.
Lemma hasF_Rj s1 s2 : Rj s1 s2 -> hasF f s2 = hasF f s1. Proof. intros H. unfold hasF. rewrite (j_fi _ _ H). reflexivity. Qed.
Lemma take_pick_Rj fast s1 s2 : Rj s1 s2 -> hasE e s1 = true -> hasF f s1 = true ->
  Rj (take o e f j1 fast (pick_e o (men s1) (mfn s1)) s1) (take o e f j2 fast (pick_e o (men s2) (mfn s2)) s2).
Proof.
  intros H E F. apply Nat.ltb_lt in E, F. rewrite <- (j_en _ _ H E), <- (j_fn _ _ H F). apply take_Rj; [exact H|]. destruct (pick_e o (men s1) (mfn s1)); assumption.
Qed.
Lemma both_Rj n s1 s2 : Rj s1 s2 -> Rj (loop_both o e f j1 n s1) (loop_both o e f j2 n s2).
Proof.
  revert s1 s2. induction n as [|n IH]; intros s1 s2 H; [exact H|]. cbn [loop_both]. rewrite (hasE_Rj _ _ H), (hasF_Rj _ _ H).
  destruct (hasE e s1) eqn:E, (hasF f s1) eqn:F; cbn [andb]; try exact H. apply IH, take_pick_Rj; assumption.
Qed.
Lemma loop_e_Rj n s1 s2 : Rj s1 s2 -> Rj (loop_e o e f j1 n s1) (loop_e o e f j2 n s2).
Proof.
  revert s1 s2. induction n as [|n IH]; intros s1 s2 H; [exact H|]. cbn [loop_e]. rewrite (hasE_Rj _ _ H).
  destruct (hasE e s1) eqn:E; [|exact H]. apply IH, take_Rj; [exact H|apply Nat.ltb_lt, E].
Qed.
Lemma loop_f_Rj n s1 s2 : Rj s1 s2 -> Rj (loop_f o e f j1 n s1) (loop_f o e f j2 n s2).
Proof.
  revert s1 s2. induction n as [|n IH]; intros s1 s2 H; [exact H|]. cbn [loop_f]. rewrite (hasF_Rj _ _ H).
  destruct (hasF f s1) eqn:E; [|exact H]. apply IH, take_Rj; [exact H|apply Nat.ltb_lt, E].
Qed.
Lemma sum_junk : e <> [] -> f <> [] -> fast_expansion_sum o e f j1 = fast_expansion_sum o e f j2.
Proof.
  intros Ne Nf. unfold fast_expansion_sum, fast_expansion_sum_state.
  assert (S0 : Rj (start o e f j1) (start o e f j2)).
  { assert (Le : (0 < length e)%nat) by (destruct e; [contradiction|cbn; lia]). assert (Lf : (0 < length f)%nat) by (destruct f; [contradiction|cbn; lia]).
    unfold start. rewrite <- (rd_in e 0 Le), <- (rd_in f 0 Lf). destruct (pick_e o (rd j1 e 0) (rd j1 f 0)); constructor; cbn; auto; intros; apply rd_in; assumption. }
  set (s1 := start o e f j1) in *. set (s2 := start o e f j2) in *. rewrite (hasE_Rj _ _ S0), (hasF_Rj _ _ S0).
  assert (H : Rj (if hasE e s1 && hasF f s1 then loop_both o e f j1 (merge_fuel e f) (take o e f j1 true (pick_e o (men s1) (mfn s1)) s1) else s1)
    (if hasE e s1 && hasF f s1 then loop_both o e f j2 (merge_fuel e f) (take o e f j2 true (pick_e o (men s2) (mfn s2)) s2) else s2)).
  { destruct (hasE e s1) eqn:E, (hasF f s1) eqn:F; cbn [andb]; try exact S0. apply both_Rj, take_pick_Rj; assumption. }
  apply (loop_e_Rj (merge_fuel e f)), (loop_f_Rj (merge_fuel e f)) in H. cbv zeta. rewrite (j_Q _ _ H), (j_h _ _ H). reflexivity.
Qed.
End Two.
Lemma sum_ne e f j : fast_expansion_sum o e f j <> [].
Proof.
  unfold fast_expansion_sum, finish. cbv zeta. destruct (mh (fast_expansion_sum_state o e f j)) as [|x l]; [rewrite Bool.orb_true_r; discriminate|].
  destruct (feq o (mQ (fast_expansion_sum_state o e f j)) (lit o 0)); cbn; discriminate.
Qed.
Lemma ttd_ne a b c d : two_two_diff o a b c d <> [].
Proof.
  unfold two_two_diff. destruct (two_one_diff o a b d) as [[? ?] ?]. destruct (two_one_diff o _ _ c) as [[? ?] ?]. discriminate.
Qed.
Lemma adapt_junk eps sp j1 j2 pa pb pc S : orient2dadapt o eps sp j1 pa pb pc S = orient2dadapt o eps sp j2 pa pb pc S.
Proof.
  unfold orient2dadapt.
  repeat match goal with |- context [two_product o sp ?a ?b] => destruct (two_product o sp a b) end.
  repeat match goal with |- (if ?c then _ else _) = _ => destruct c; [reflexivity|] end.
  repeat match goal with |- context [two_product o sp ?a ?b] => destruct (two_product o sp a b) end.
  f_equal. rewrite (sum_junk _ _ j1 j2) by (apply sum_ne || apply ttd_ne). f_equal.
  rewrite (sum_junk _ _ j1 j2) by (apply sum_ne || apply ttd_ne). f_equal. apply sum_junk; apply ttd_ne.
Qed.
Lemma orient_junk eps sp j1 j2 pa pb pc : orient2d o eps sp j1 pa pb pc = orient2d o eps sp j2 pa pb pc.
Proof. unfold orient2d. rewrite !(adapt_junk eps sp j1 j2). reflexivity. Qed.

Section Bad.
Variables (e f : list T) (j : T).
Definition Bd (s : @mst T) : Prop := ((length e <= mei s)%nat \/ (length f <= mfi s)%nat) -> bad s = true.
Lemma take_Bd fast b s : Bd s -> Bd (take o e f j fast b s).
Proof.
  intros H. unfold take. destruct b.
  - destruct (if fast then fast_two_sum o (men s) (mQ s) else two_sum o (mQ s) (men s)) as [q h]. unfold Bd in *. cbn [mei mfi bad].
    intros [L|L]; [|rewrite H by (right; exact L); reflexivity]. unfold oob. rewrite (proj2 (Nat.leb_le _ _) L). apply Bool.orb_true_r.
  - destruct (if fast then fast_two_sum o (mfn s) (mQ s) else two_sum o (mQ s) (mfn s)) as [q h]. unfold Bd in *. cbn [mei mfi bad].
    intros [L|L]; [rewrite H by (left; exact L); reflexivity|]. unfold oob. rewrite (proj2 (Nat.leb_le _ _) L). apply Bool.orb_true_r.
Qed.
Lemma both_Bd n s : Bd s -> Bd (loop_both o e f j n s).
Proof. revert s; induction n as [|n IH]; intros s H; [exact H|]. cbn [loop_both]. destruct (hasE e s && hasF f s); [apply IH, take_Bd, H|exact H]. Qed.
Lemma loop_e_Bd n s : Bd s -> Bd (loop_e o e f j n s).
Proof. revert s; induction n as [|n IH]; intros s H; [exact H|]. cbn [loop_e]. destruct (hasE e s); [apply IH, take_Bd, H|exact H]. Qed.
Lemma loop_f_Bd n s : Bd s -> Bd (loop_f o e f j n s).
Proof. revert s; induction n as [|n IH]; intros s H; [exact H|]. cbn [loop_f]. destruct (hasF f s); [apply IH, take_Bd, H|exact H]. Qed.
Lemma loop_f_end n s : (length f <= mfi s + n)%nat -> (length f <= mfi (loop_f o e f j n s))%nat.
Proof.
  revert s; induction n as [|n IH]; intros s H; [cbn; lia|]. cbn [loop_f]. destruct (hasF f s) eqn:F; [|apply Nat.ltb_ge in F; exact F].
  apply IH. unfold take. destruct (two_sum o (mQ s) (mfn s)). cbn [mfi]. lia.
Qed.
Lemma sum_bad : e <> [] -> f <> [] -> bad (fast_expansion_sum_state o e f j) = true.
Proof.
  intros Ne Nf. assert (B0 : Bd (start o e f j)).
  { assert (Le : (0 < length e)%nat) by (destruct e; [contradiction|cbn; lia]). assert (Lf : (0 < length f)%nat) by (destruct f; [contradiction|cbn; lia]).
    unfold start, Bd. destruct (pick_e o (rd j e 0) (rd j f 0)); cbn [mei mfi bad]; (intros [L|L]; [|try lia]); try lia;
      unfold oob; rewrite (proj2 (Nat.leb_le _ _) L); apply Bool.orb_true_r. }
  unfold fast_expansion_sum_state. cbv zeta. set (s := start o e f j) in *. clearbody s.
  match goal with |- bad (loop_f _ _ _ _ _ (loop_e _ _ _ _ _ ?x)) = _ => assert (B1 : Bd x); [|set (y := x) in *; clearbody y] end.
  { destruct (hasE e s && hasF f s); [apply both_Bd, take_Bd, B0|exact B0]. }
  assert (B2 : Bd (loop_f o e f j (merge_fuel e f) (loop_e o e f j (merge_fuel e f) y))) by (apply loop_f_Bd, loop_e_Bd, B1).
  apply B2. right. apply loop_f_end. unfold merge_fuel. lia.
Qed.
End Bad.
End Junk.
