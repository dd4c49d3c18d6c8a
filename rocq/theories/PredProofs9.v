(** orient2d: the exact stage. *)
From Coq Require Import Reals Lra Lia.
From Flocq Require Import Core Pff2Flocq Relative.
From Verif Require Import Prelude PredModel PredSpec PredProofs PredProofs2 PredProofs3 PredProofs4 PredProofs5 PredProofs6 PredProofs7 PredProofs8.
Open Scope R_scope.

Definition tm (x : R) : Prop := is_double x /\ multiple (-450) x.
Lemma ttd x y z w : tm x -> tm y -> tm z -> tm w ->
  let '(s1, s0) := two_product dbl spl x y in let '(t1, t0) := two_product dbl spl z w in
  let U := two_two_diff dbl s1 s0 t1 t0 in
  length U = 4%nat /\ Forall good U /\ nonadj U /\ total U = x * y - z * w.
Proof.
  intros [Fx Mx] [Fy My] [Fz Mz] [Fw Mw].
  pose proof (prod_mul x y Mx My) as Pl. pose proof (prod_mul z w Mz Mw) as Pr.
  destruct (two_product_ok x y Fx Fy (prod_big _ Pl)) as (A1 & A2 & A3).
  destruct (two_product_ok z w Fz Fw (prod_big _ Pr)) as (B1 & B2 & B3).
  destruct (two_product dbl spl x y) as [l1 l0]. destruct (two_product dbl spl z w) as [r1 r0].
  cbn [fst snd] in *. cbv zeta.
  assert (MM : Forall (multiple (-900)) (two_two_diff dbl l1 l0 r1 r0)).
  { apply two_two_diff_mul; try assumption; rewrite ?A1, ?A2, ?B1, ?B2; try apply fmt_rnd; try (apply rnd_mul; assumption).
    - apply mul_sub; [exact Pl|apply rnd_mul, Pl].
    - apply mul_sub; [exact Pr|apply rnd_mul, Pr]. }
  destruct (two_two_diff_ok l1 l0 r1 r0) as (x0 & x1 & x2 & x3 & E & F & T & N & U); try assumption.
  - rewrite A1. apply fmt_rnd.
  - rewrite B1. apply fmt_rnd.
  - rewrite A1, A2. apply sep_round.
  - rewrite B1, B2. apply sep_round.
  - rewrite E in *. split; [reflexivity|]. split; [|split; [exact N|]].
    + rewrite Forall_forall in *. intros a Ha. split; [apply F, Ha|]. apply mul_weaken with (-900)%Z; [lia|]. apply MM, Ha.
    + unfold total. cbn [fold_right]. rewrite A2, B2, A1, B1 in T. lra.
Qed.

Section Exact.
Variables pa pb pc : @pt2 R.
Hypothesis Ha : coords (-450) pa.
Hypothesis Hb : coords (-450) pb.
Hypothesis Hc : coords (-450) pc.
Let ax := p0 pa - p0 pc. Let bx := p0 pb - p0 pc. Let ay := p1 pa - p1 pc. Let by_ := p1 pb - p1 pc.
Let Dax : dif ax (rnd ax). Proof. apply dif_ok; [apply Ha|apply Hc]. Qed.
Let Dbx : dif bx (rnd bx). Proof. apply dif_ok; [apply Hb|apply Hc]. Qed.
Let Day : dif ay (rnd ay). Proof. apply dif_ok; [apply Ha|apply Hc]. Qed.
Let Dby : dif by_ (rnd by_). Proof. apply dif_ok; [apply Hb|apply Hc]. Qed.
Lemma tm_h X x : dif X x -> tm x. Proof. intros D. split; apply D. Qed.
Lemma tm_t X x : dif X x -> tm (X - x). Proof. intros D. split; apply D. Qed.

(** the exact value of the last stage, and more: the expansion it leaves *)
Lemma adapt_exact junk S D : orient2dadapt dbl u spl junk pa pb pc S = Exact D ->
  total D = garea pa pb pc /\ Forall is_double D /\ D <> [] /\ (length D <= 16)%nat /\ same_sign (last D 0) (total D).
Proof.
  unfold orient2dadapt. cbn [fsub fadd fmul fopp dbl lit]. fold ax bx ay by_.
  pose proof (ttd (rnd ax) (rnd by_) (rnd ay) (rnd bx) (tm_h _ _ Dax) (tm_h _ _ Dby) (tm_h _ _ Day) (tm_h _ _ Dbx)) as K0.
  destruct (two_product dbl spl (rnd ax) (rnd by_)) as [l1 l0]. destruct (two_product dbl spl (rnd ay) (rnd bx)) as [r1 r0].
  cbv zeta in K0. set (B := two_two_diff dbl l1 l0 r1 r0) in *. clearbody B.
  match goal with |- context [if ?c then EstimateB _ else _] => destruct c end; [discriminate|].
  destruct (two_diff_tail_ok (p0 pa) (p0 pc)) as [Tax _]; [apply Ha|apply Hc|]. fold ax in Tax. rewrite Tax.
  destruct (two_diff_tail_ok (p0 pb) (p0 pc)) as [Tbx _]; [apply Hb|apply Hc|]. fold bx in Tbx. rewrite Tbx.
  destruct (two_diff_tail_ok (p1 pa) (p1 pc)) as [Tay _]; [apply Ha|apply Hc|]. fold ay in Tay. rewrite Tay.
  destruct (two_diff_tail_ok (p1 pb) (p1 pc)) as [Tby _]; [apply Hb|apply Hc|]. fold by_ in Tby. rewrite Tby.
  match goal with |- context [if ?c then NoTails _ else _] => destruct c end; [discriminate|].
  match goal with |- context [if ?c then EstimateC _ else _] => destruct c end; [discriminate|].
  pose proof (ttd (ax - rnd ax) (rnd by_) (ay - rnd ay) (rnd bx) (tm_t _ _ Dax) (tm_h _ _ Dby) (tm_t _ _ Day) (tm_h _ _ Dbx)) as K1.
  destruct (two_product dbl spl (ax - rnd ax) (rnd by_)) as [s1 s0]. destruct (two_product dbl spl (ay - rnd ay) (rnd bx)) as [t1 t0].
  cbv zeta in K1. set (U1 := two_two_diff dbl s1 s0 t1 t0) in *. clearbody U1. clear s1 s0 t1 t0.
  pose proof (ttd (rnd ax) (by_ - rnd by_) (rnd ay) (bx - rnd bx) (tm_h _ _ Dax) (tm_t _ _ Dby) (tm_h _ _ Day) (tm_t _ _ Dbx)) as K2.
  destruct (two_product dbl spl (rnd ax) (by_ - rnd by_)) as [s1 s0]. destruct (two_product dbl spl (rnd ay) (bx - rnd bx)) as [t1 t0].
  cbv zeta in K2. set (U2 := two_two_diff dbl s1 s0 t1 t0) in *. clearbody U2. clear s1 s0 t1 t0.
  pose proof (ttd (ax - rnd ax) (by_ - rnd by_) (ay - rnd ay) (bx - rnd bx) (tm_t _ _ Dax) (tm_t _ _ Dby) (tm_t _ _ Day) (tm_t _ _ Dbx)) as K3.
  destruct (two_product dbl spl (ax - rnd ax) (by_ - rnd by_)) as [s1 s0]. destruct (two_product dbl spl (ay - rnd ay) (bx - rnd bx)) as [t1 t0].
  cbv zeta in K3. set (U3 := two_two_diff dbl s1 s0 t1 t0) in *. clearbody U3. clear s1 s0 t1 t0.
  intros E. injection E as <-.
  destruct K0 as (L0 & G0 & N0 & T0), K1 as (L1 & G1 & N1 & T1), K2 as (L2 & G2 & N2 & T2), K3 as (L3 & G3 & N3 & T3).
  assert (NE : forall l : list R, length l = 4%nat -> l <> []) by (intros [|x l] H; [discriminate H|discriminate]).
  destruct (merge_ok B U1 junk G0 G1 (nonadj_wfwd _ N0) N1) as (A1 & A2 & A3 & A4 & A5 & _); try lia; try (apply NE; assumption).
  set (C1 := fast_expansion_sum dbl B U1 junk) in *. clearbody C1.
  destruct (merge_ok C1 U2 junk A2 G2 A3 N2) as (B1 & B2 & B3 & B4 & B5 & _); try lia; try assumption; try (apply NE; assumption).
  set (C2 := fast_expansion_sum dbl C1 U2 junk) in *. clearbody C2.
  destruct (merge_ok C2 U3 junk B2 G3 B3 N3) as (D1 & D2 & D3 & D4 & D5 & D6); try lia; try assumption; try (apply NE; assumption).
  split; [|split; [|split; [exact D4|split; [lia|exact D6]]]].
  - rewrite D1, B1, A1, T0, T1, T2, T3. unfold garea, area2. fold ax bx ay by_. ring.
  - eapply Forall_impl; [|exact D2]. intros a [H _]. exact H.
Qed.
Lemma orient2d_exact junk D : orient2d dbl u spl junk pa pb pc = Exact D ->
  total D = garea pa pb pc /\ Forall is_double D /\ D <> [] /\ (length D <= 16)%nat /\ same_sign (last D 0) (total D).
Proof.
  unfold orient2d.
  repeat match goal with |- context [if ?c then _ else _] => destruct c; try discriminate end; apply adapt_exact.
Qed.
Lemma orient2d_all junk : same_sign (value dbl (orient2d dbl u spl junk pa pb pc)) (garea pa pb pc).
Proof.
  destruct (orient2d dbl u spl junk pa pb pc) as [d|d|d|d|D] eqn:E; try (apply (orient2d_sign pa pb pc Ha Hb Hc junk); rewrite E; reflexivity).
  destruct (orient2d_exact junk D E) as (T & _ & _ & _ & S). rewrite <- T. exact S.
Qed.
End Exact.
