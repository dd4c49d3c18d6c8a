(** orient2d: the sign of every value it returns before the exact stage. *)
From Coq Require Import Reals Lra Lia.
From Flocq Require Import Core Pff2Flocq Relative.
From Verif Require Import Prelude PredModel PredSpec PredProofs PredProofs2 PredProofs3 PredProofs4.
Open Scope R_scope.

Definition coords (k : Z) (p : @pt2 R) : Prop := coord k (p0 p) /\ coord k (p1 p).
Definition garea (pa pb pc : @pt2 R) : R := area2 (p0 pa) (p1 pa) (p0 pb) (p1 pb) (p0 pc) (p1 pc).

(** a rounded difference of coordinates *)
Record dif (X x : R) : Prop := {
  d_dbl : is_double x; d_mul : multiple (-450) x; d_rnd : x = rnd X;
  d_err : Rabs (X - x) <= u * Rabs x;
  d_tdbl : is_double (X - x); d_tmul : multiple (-450) (X - x) }.
Lemma dif_ok a c : coord (-450) a -> coord (-450) c -> dif (a - c) (rnd (a - c)).
Proof.
  intros [Fa Ma] [Fc Mc]. assert (M : multiple (-450) (a - c)) by (apply mul_sub; assumption).
  constructor; [apply fmt_rnd|apply rnd_mul, M|reflexivity| | |].
  - apply rnd_err'. apply mul_weaken with (2 := M). lia.
  - apply (two_diff_tail_ok a c Fa Fc).
  - apply mul_sub; [exact M|apply rnd_mul, M].
Qed.
Lemma prod_mul x y : multiple (-450) x -> multiple (-450) y -> multiple (-900) (x * y).
Proof. intros Hx Hy. exact (mul_mul (-450) (-450) x y Hx Hy). Qed.
Lemma m900 x : multiple (-900) x -> multiple (-1074) x. Proof. apply mul_weaken. lia. Qed.
Lemma prod_big x : multiple (-900) x -> x = 0 \/ bp (-969) <= Rabs x.
Proof.
  intros H. destruct (Req_dec x 0) as [E|E]; [left; exact E|right].
  eapply Rle_trans; [|apply (mul_ge _ _ H E)]. apply bpow_le. lia.
Qed.
(** a rounded product of two of them *)
Record prd (L p l : R) : Prop := {
  p_mul : multiple (-900) p; p_rnd : l = rnd p;
  p_err1 : Rabs (L - p) <= (2 * u + u * u) * Rabs p;
  p_err2 : Rabs (p - l) <= u * Rabs l;
  p_err : Rabs (L - l) <= (3 * u + 4 * u * u) * Rabs l }.
Lemma prd_ok X x Y y : dif X x -> dif Y y -> prd (X * Y) (x * y) (rnd (x * y)).
Proof.
  intros HX HY. assert (M : multiple (-900) (x * y)) by (apply prod_mul; [apply HX|apply HY]).
  assert (E1 : Rabs (X * Y - x * y) <= (2 * u + u * u) * Rabs (x * y)) by (apply prod_err; [apply HX|apply HY]).
  assert (E2 : Rabs (x * y - rnd (x * y)) <= u * Rabs (rnd (x * y))) by (apply rnd_err', m900, M).
  constructor; try assumption; [reflexivity|].
  pose proof (tri (x * y) (rnd (x * y))) as T. pose proof (Rabs_triang (X * Y - x * y) (x * y - rnd (x * y))) as T2.
  replace (X * Y - x * y + (x * y - rnd (x * y))) with (X * Y - rnd (x * y)) in T2 by lra.
  pose proof (Rabs_pos (x * y)). pose proof (Rabs_pos (rnd (x * y))). rewrite u_val in *. lra.
Qed.
Lemma prd_mul L p l : prd L p l -> multiple (-900) l.
Proof. intros H. rewrite (p_rnd _ _ _ H). apply rnd_mul, H. Qed.
Lemma prd_dbl L p l : prd L p l -> is_double l.
Proof. intros H. rewrite (p_rnd _ _ _ H). apply fmt_rnd. Qed.
Lemma prd_sign L p l : prd L p l -> same_sign l L.
Proof.
  intros H. apply close_sign with (3 * u + 4 * u * u); [rewrite u_val; lra|]. rewrite Rabs_minus_sym. apply H.
Qed.

Definition returned (r : @outcome R) : option R :=
  match r with Filter d | EstimateB d | NoTails d | EstimateC d => Some d | Exact _ => None end.

Section Orient.
Variables pa pb pc : @pt2 R.
Hypothesis Ha : coords (-450) pa.
Hypothesis Hb : coords (-450) pb.
Hypothesis Hc : coords (-450) pc.
Let ax := p0 pa - p0 pc. Let bx := p0 pb - p0 pc. Let ay := p1 pa - p1 pc. Let by_ := p1 pb - p1 pc.
Let Dax : dif ax (rnd ax). Proof. apply dif_ok; [apply Ha|apply Hc]. Qed.
Let Dbx : dif bx (rnd bx). Proof. apply dif_ok; [apply Hb|apply Hc]. Qed.
Let Day : dif ay (rnd ay). Proof. apply dif_ok; [apply Ha|apply Hc]. Qed.
Let Dby : dif by_ (rnd by_). Proof. apply dif_ok; [apply Hb|apply Hc]. Qed.
Let l := rnd (rnd ax * rnd by_). Let r := rnd (rnd ay * rnd bx).
Let Pl : prd (ax * by_) (rnd ax * rnd by_) l := prd_ok _ _ _ _ Dax Dby.
Let Pr : prd (ay * bx) (rnd ay * rnd bx) r := prd_ok _ _ _ _ Day Dbx.

Lemma tails_ok : let '(l1, l0) := two_product dbl spl (rnd ax) (rnd by_) in let '(r1, r0) := two_product dbl spl (rnd ay) (rnd bx) in
  exists x0 x1 x2 x3, two_two_diff dbl l1 l0 r1 r0 = [x0; x1; x2; x3] /\ Forall is_double [x0; x1; x2; x3] /\
    x0 + x1 + x2 + x3 = rnd ax * rnd by_ - rnd ay * rnd bx /\ nonadj [x0; x1; x2; x3] /\ Rabs x2 <= u * Rabs x3 /\
    Forall (multiple (-900)) [x0; x1; x2; x3].
Proof.
  destruct (two_product_ok (rnd ax) (rnd by_)) as (A1 & A2 & A3); [apply Dax|apply Dby|apply prod_big, Pl|].
  destruct (two_product_ok (rnd ay) (rnd bx)) as (B1 & B2 & B3); [apply Day|apply Dbx|apply prod_big, Pr|].
  destruct (two_product dbl spl (rnd ax) (rnd by_)) as [l1 l0]. destruct (two_product dbl spl (rnd ay) (rnd bx)) as [r1 r0].
  cbn [fst snd] in *.
  assert (MM : Forall (multiple (-900)) (two_two_diff dbl l1 l0 r1 r0)).
  { apply two_two_diff_mul; rewrite ?A1, ?A2, ?B1, ?B2; try assumption; try apply fmt_rnd; try (apply rnd_mul, Pl); try (apply rnd_mul, Pr);
      try (rewrite <- A2; assumption); try (rewrite <- B2; assumption).
    - apply mul_sub; [apply Pl|apply rnd_mul, Pl].
    - apply mul_sub; [apply Pr|apply rnd_mul, Pr]. }
  destruct (two_two_diff_ok l1 l0 r1 r0) as (x0 & x1 & x2 & x3 & E & F & T & N & U); try assumption.
  - rewrite A1. apply fmt_rnd.
  - rewrite B1. apply fmt_rnd.
  - rewrite A1, A2. apply sep_round.
  - rewrite B1, B2. apply sep_round.
  - exists x0, x1, x2, x3. split; [exact E|]. split; [exact F|]. split; [lra|]. split; [exact N|]. split; [exact U|]. rewrite <- E. exact MM.
Qed.

Lemma adapt_sign junk S d : Rabs l + Rabs r <= (1 + u) * S -> 0 < S -> multiple (-900) S ->
  returned (orient2dadapt dbl u spl junk pa pb pc S) = Some d -> same_sign d (garea pa pb pc).
Proof.
  intros HS S0 MS. unfold orient2dadapt. cbn [fsub fadd fmul fopp dbl lit].
  fold ax bx ay by_. pose proof tails_ok as K.
  change (fun a b => rnd (a - b)) with (fsub dbl). 
  destruct (two_product dbl spl (rnd ax) (rnd by_)) as [l1 l0]. destruct (two_product dbl spl (rnd ay) (rnd bx)) as [r1 r0].
  destruct K as (x0 & x1 & x2 & x3 & E & F & T & N & U & MM). rewrite E.
  pose proof (est_ok x0 x1 x2 x3 F N U) as G. cbv zeta in G. rewrite T in G. set (det := estimate dbl [x0; x1; x2; x3]) in *.
  assert (Gd : garea pa pb pc = ax * by_ - ay * bx) by reflexivity.
  assert (MB : forall c k, multiple k c -> (-174 <= k)%Z -> 0 <= c -> forall y, multiple (-900) y -> c * y <= (1 + u) * rnd (c * y) \/ y < 0).
  { intros c k Mc Hk C0 y My. destruct (Rlt_le_dec y 0) as [Y|Y]; [right; exact Y|left].
    assert (M : multiple (-1074) (c * y)) by (apply mul_weaken with (2 := mul_mul _ _ _ _ Mc My); lia).
    pose proof (rnd_err' _ M) as Er. assert (P : 0 <= c * y) by (apply Rmult_le_pos; assumption).
    assert (R0 : 0 <= rnd (c * y)) by (rewrite <- rnd_0; apply rnd_le, P). rewrite (Rabs_pos_eq (rnd (c * y)) R0) in Er.
    pose proof (Rle_abs (c * y - rnd (c * y))). lra. }
  assert (Mdet : multiple (-900) det).
  { assert (Mx : multiple (-900) x0 /\ multiple (-900) x1 /\ multiple (-900) x2 /\ multiple (-900) x3); [|
      unfold det, estimate; cbn [fold_left fadd dbl]; destruct Mx as (M0 & M1 & M2 & M3);
      apply rnd_mul, mul_add; [apply rnd_mul, mul_add; [apply rnd_mul, mul_add|]|]; assumption].
    inversion MM as [|? ? M0 MM1]; subst. inversion MM1 as [|? ? M1 MM2]; subst. inversion MM2 as [|? ? M2 MM3]; subst. inversion MM3 as [|? ? M3 _]; subst.
    repeat split; assumption. }
  destruct (fge dbl det (rnd (ccwerrboundB dbl u * S)) || fge dbl (- det) (rnd (ccwerrboundB dbl u * S))) eqn:CB.
  - cbn. intros Ed; injection Ed as <-. rewrite Gd.
    rewrite ccwB_val in CB. destruct (MB _ _ ccwB_mul ltac:(lia) ltac:(rewrite u_val; lra) S MS) as [HB|HB]; [|lra].
    apply estimateB_sign with (l := l) (r := r) (p := rnd ax * rnd by_) (q := rnd ay * rnd bx) (S := S) (E := rnd ((2 * u + 12 * u * u) * S));
      try assumption; try apply Pl; try apply Pr.
    apply Bool.orb_true_iff in CB. rewrite !fge_true in CB. exact CB.
  - destruct (two_diff_tail_ok (p0 pa) (p0 pc)) as [Tax _]; [apply Ha|apply Hc|]. fold ax in Tax. rewrite Tax.
    destruct (two_diff_tail_ok (p0 pb) (p0 pc)) as [Tbx _]; [apply Hb|apply Hc|]. fold bx in Tbx. rewrite Tbx.
    destruct (two_diff_tail_ok (p1 pa) (p1 pc)) as [Tay _]; [apply Ha|apply Hc|]. fold ay in Tay. rewrite Tay.
    destruct (two_diff_tail_ok (p1 pb) (p1 pc)) as [Tby _]; [apply Hb|apply Hc|]. fold by_ in Tby. rewrite Tby.
    destruct (feq dbl (ax - rnd ax) 0 && feq dbl (ay - rnd ay) 0 && feq dbl (bx - rnd bx) 0 && feq dbl (by_ - rnd by_) 0) eqn:CT.
    + cbn. intros Ed; injection Ed as <-. rewrite Gd. rewrite !Bool.andb_true_iff, !feq_true in CT.
      apply close_sign with (201 / 100 * u); [rewrite u_val; lra|].
      replace ax with (rnd ax) by lra. replace by_ with (rnd by_) by lra. replace ay with (rnd ay) by lra. replace bx with (rnd bx) by lra.
      replace (rnd (rnd ax)) with (rnd ax); [|symmetry; apply rnd_id, fmt_rnd]. exact G.
    + set (k1 := rnd ax * (by_ - rnd by_)). set (k2 := rnd by_ * (ax - rnd ax)).
      set (k3 := rnd ay * (bx - rnd bx)). set (k4 := rnd bx * (ay - rnd ay)).
      set (t := rnd (rnd (rnd k1 + rnd k2) - rnd (rnd k3 + rnd k4))).
      rewrite ccwC_val, result_val, absolute_abs.
      match goal with |- context [if ?c then _ else _] => destruct c eqn:CC end; [|
        destruct (two_product dbl spl (ax - rnd ax) (rnd by_)); destruct (two_product dbl spl (ay - rnd ay) (rnd bx));
        destruct (two_product dbl spl (rnd ax) (by_ - rnd by_)); destruct (two_product dbl spl (rnd ay) (bx - rnd bx));
        destruct (two_product dbl spl (ax - rnd ax) (by_ - rnd by_)); destruct (two_product dbl spl (ay - rnd ay) (bx - rnd bx)); cbn; discriminate].
      cbn. intros Ed; injection Ed as <-. apply Bool.orb_true_iff in CC. rewrite !fge_true in CC.
      replace (garea pa pb pc) with ((rnd ax * rnd by_ - rnd ay * rnd bx) + (k1 + k2) - (k3 + k4) + ((ax - rnd ax) * (by_ - rnd by_) - (ay - rnd ay) * (bx - rnd bx)))
        by (rewrite Gd; unfold k1, k2, k3, k4; ring).
      assert (Kb : forall x Y y, Rabs (Y - y) <= u * Rabs y -> Rabs (x * (Y - y)) <= u * Rabs (x * y)).
      { intros x Y y Hy. rewrite !Rabs_mult. replace (u * (Rabs x * Rabs y)) with (Rabs x * (u * Rabs y)) by ring.
        apply Rmult_le_compat_l; [apply Rabs_pos|exact Hy]. }
      assert (Km : forall X x Y y, Rabs (X - x) <= u * Rabs x -> Rabs (Y - y) <= u * Rabs y -> Rabs ((X - x) * (Y - y)) <= u * u * Rabs (x * y)).
      { intros X x Y y Hx Hy. rewrite !Rabs_mult. replace (u * u * (Rabs x * Rabs y)) with ((u * Rabs x) * (u * Rabs y)) by ring.
        apply Rmult_le_compat; try apply Rabs_pos; assumption. }
      assert (M1 : multiple (-900) k1) by (apply prod_mul; [apply Dax|apply Dby]).
      assert (M2 : multiple (-900) k2) by (apply prod_mul; [apply Dby|apply Dax]).
      assert (M3 : multiple (-900) k3) by (apply prod_mul; [apply Day|apply Dbx]).
      assert (M4 : multiple (-900) k4) by (apply prod_mul; [apply Dbx|apply Day]).
      assert (M12 : multiple (-900) (rnd k1 + rnd k2)) by (apply mul_add; apply rnd_mul; assumption).
      assert (M34 : multiple (-900) (rnd k3 + rnd k4)) by (apply mul_add; apply rnd_mul; assumption).
      assert (Mt : multiple (-900) (rnd (rnd k1 + rnd k2) - rnd (rnd k3 + rnd k4))) by (apply mul_sub; apply rnd_mul; assumption).
      assert (Mdt : multiple (-900) (det + t)) by (apply mul_add; [exact Mdet|apply rnd_mul, Mt]).
      assert (Mab : multiple (-900) (Rabs det)) by (unfold Rabs; destruct (Rcase_abs det); [apply mul_opp|]; exact Mdet).
      destruct (MB _ _ ccwC_mul ltac:(lia) ltac:(rewrite u_val; lra) S MS) as [HC|HC]; [|lra].
      destruct (MB _ _ result_mul ltac:(lia) ltac:(rewrite u_val; lra) (Rabs det) Mab) as [HR|HR]; [|pose proof (Rabs_pos det); lra].
      set (e1 := rnd ((9 * u * u + 64 * u * u * u) * S)) in *. set (e2 := rnd ((3 * u + 8 * u * u) * Rabs det)) in *.
      apply estimateC_sign with (l := l) (r := r) (r1 := rnd k1) (r2 := rnd k2) (r3 := rnd k3) (r4 := rnd k4)
        (s1 := rnd (rnd k1 + rnd k2)) (s2 := rnd (rnd k3 + rnd k4)) (t := t) (S := S) (det := det) (e1 := e1) (e2 := e2) (E := rnd (e1 + e2));
        try assumption; try apply Pl; try apply Pr.
      * apply Kb, Dby.
      * unfold k2. rewrite (Rmult_comm (rnd ax)). apply Kb, Dax.
      * apply Kb, Dbx.
      * unfold k4. rewrite (Rmult_comm (rnd ay)). apply Kb, Day.
      * apply Km; [apply Dax|apply Dby].
      * apply Km; [apply Day|apply Dbx].
      * apply rnd_err, m900, M1.
      * apply rnd_err, m900, M2.
      * apply rnd_err, m900, M3.
      * apply rnd_err, m900, M4.
      * apply rnd_err, m900, M12.
      * apply rnd_err, m900, M34.
      * apply rnd_err, m900, Mt.
      * apply rnd_err', m900, Mdt.
      * assert (Me : multiple (-1074) (e1 + e2)).
        { apply mul_add; apply rnd_mul; [apply mul_weaken with (2 := mul_mul _ _ _ _ ccwC_mul MS)|apply mul_weaken with (2 := mul_mul _ _ _ _ result_mul Mab)]; lia. }
        assert (P1 : 0 <= e1) by (unfold e1; rewrite <- rnd_0; apply rnd_le; apply Rmult_le_pos; [rewrite u_val|]; lra).
        assert (P2 : 0 <= e2) by (unfold e2; rewrite <- rnd_0; apply rnd_le; apply Rmult_le_pos; [rewrite u_val; lra|apply Rabs_pos]).
        pose proof (rnd_err' _ Me) as Er.
        assert (R0 : 0 <= rnd (e1 + e2)) by (rewrite <- rnd_0; apply rnd_le; lra). rewrite (Rabs_pos_eq (rnd (e1 + e2)) R0) in Er.
        pose proof (Rle_abs (e1 + e2 - rnd (e1 + e2))). lra.
Qed.

Lemma orient2d_sign junk d : returned (orient2d dbl u spl junk pa pb pc) = Some d -> same_sign d (garea pa pb pc).
Proof.
  unfold orient2d. cbn [fsub fadd fmul fopp dbl lit]. fold ax bx ay by_. fold l r.
  assert (Gd : garea pa pb pc = ax * by_ - ay * bx) by reflexivity.
  pose proof (prd_sign _ _ _ Pl) as [Sl1 Sl2]. pose proof (prd_sign _ _ _ Pr) as [Sr1 Sr2].
  pose proof (prd_mul _ _ _ Pl) as Ml. pose proof (prd_mul _ _ _ Pr) as Mr.
  assert (Md : multiple (-1074) (l - r)) by (apply m900, mul_sub; assumption).
  pose proof (rnd_err' _ Md) as Ed.
  assert (Fl : forall S d, Rabs l + Rabs r = S -> 0 < S -> multiple (-900) S ->
    returned (if fge dbl (rnd (l - r)) (rnd (ccwerrboundA dbl u * rnd S)) || fge dbl (- rnd (l - r)) (rnd (ccwerrboundA dbl u * rnd S))
              then Filter (rnd (l - r)) else orient2dadapt dbl u spl junk pa pb pc (rnd S)) = Some d -> same_sign d (garea pa pb pc)).
  { intros S d' HS S0 MS. assert (R0 : 0 < rnd S) by (apply rnd_pos; [apply m900, MS|exact S0]).
    pose proof (rnd_err' _ (m900 _ MS)) as Es. rewrite (Rabs_pos_eq (rnd S)) in Es by lra. pose proof (Rle_abs (S - rnd S)).
    assert (HS' : Rabs l + Rabs r <= (1 + u) * rnd S) by lra.
    match goal with |- context [if ?c then _ else _] => destruct c eqn:CF end.
    - cbn. intros X; injection X as <-. rewrite Gd. apply Bool.orb_true_iff in CF. rewrite !fge_true, ccwA_val in CF.
      apply filter_sign with (l := l) (r := r) (S := rnd S) (E := rnd ((3 * u + 16 * u * u) * rnd S)); try assumption; try apply Pl; try apply Pr.
      assert (Me : multiple (-1074) ((3 * u + 16 * u * u) * rnd S)) by (apply mul_weaken with (2 := mul_mul _ _ _ _ ccwA_mul (rnd_mul _ _ MS)); lia).
      pose proof (rnd_err' _ Me) as Er. assert (P : 0 <= (3 * u + 16 * u * u) * rnd S) by (apply Rmult_le_pos; [rewrite u_val|]; lra).
      rewrite (Rabs_pos_eq (rnd ((3 * u + 16 * u * u) * rnd S))) in Er by (rewrite <- rnd_0; apply rnd_le; exact P).
      pose proof (Rle_abs ((3 * u + 16 * u * u) * rnd S - rnd ((3 * u + 16 * u * u) * rnd S))). lra.
    - intros X. apply (adapt_sign junk (rnd S)); [exact HS'|exact R0|apply rnd_mul, MS|exact X]. }
  destruct (fgt dbl l 0) eqn:L1; [apply fgt_true in L1|apply fgt_false in L1].
  - destruct (fge dbl 0 r) eqn:R1; [apply fge_true in R1|apply fge_false in R1].
    + cbn. intros X; injection X as <-. rewrite Gd.
      assert (P : 0 < rnd (l - r)) by (apply rnd_pos; [exact Md|lra]). split; split; intros; lra.
    + apply Fl; [|lra|apply mul_add; assumption]. rewrite !Rabs_pos_eq by lra. reflexivity.
  - destruct (fgt dbl 0 l) eqn:L2; [apply fgt_true in L2|apply fgt_false in L2].
    + destruct (fge dbl r 0) eqn:R1; [apply fge_true in R1|apply fge_false in R1].
      * cbn. intros X; injection X as <-. rewrite Gd.
        assert (P : 0 < rnd (- (l - r))) by (apply rnd_pos; [apply mul_opp, Md|lra]). rewrite rnd_opp in P. split; split; intros; lra.
      * apply Fl; [|lra|apply mul_sub; [apply mul_opp|]; assumption]. rewrite !Rabs_left1 by lra. lra.
    + cbn. intros X; injection X as <-. rewrite Gd. assert (Z : l = 0) by lra.
      replace (l - r) with (- r) in * by lra. rewrite rnd_opp, (rnd_id r) by apply (prd_dbl _ _ _ Pr).
      split; split; intros; lra.
Qed.
End Orient.
