(* The periodic variant, when the cells divide the box evenly. *)
From Coq Require Import Reals Lra Psatz.
From Verif Require Import Prelude PdModel PdSpec PdProofs PdProofs2 PdProofs3.
Local Open Scope R_scope.

Section Periodic.
Variables (r : R) (lo hi : pt) (n m : Z).
Hypothesis Hr : 0 < r.
Hypothesis Hn : (3 <= n)%Z.
Hypothesis Hm : (3 <= m)%Z.
Hypothesis Ln : fst hi - fst lo = IZR n * h r.
Hypothesis Lm : snd hi - snd lo = IZR m * h r.
Notation cell := (cell r lo).
Notation holds := (records r lo).
Notation close := (close r).

Lemma floor_unique x k : IZR k <= x < IZR k + 1 -> Int_part x = k.
Proof.
  intros H. pose proof (floor_bounds x). assert (Int_part x <= k)%Z by (apply IZR_lt_le; lra).
  assert (k <= Int_part x)%Z by (apply IZR_lt_le; lra). lia.
Qed.
(* one coordinate: moving by k periods moves the index by k times the number of cells *)
Lemma floor_period l x nn k : Int_part ((x + IZR k * (IZR nn * h r) - l) / h r) = (Int_part ((x - l) / h r) + k * nn)%Z.
Proof.
  pose proof (h_pos r Hr). apply floor_unique. rewrite plus_IZR, mult_IZR.
  replace ((x + IZR k * (IZR nn * h r) - l) / h r) with ((x - l) / h r + IZR k * IZR nn) by (field; lra).
  pose proof (floor_bounds ((x - l) / h r)). lra.
Qed.
Lemma near_period nn c c' k : (3 <= nn -> 0 <= c < nn -> 0 <= c' < nn -> c - 2 <= c' + k * nn < c + 3 -> -1 <= k <= 1)%Z.
Proof.
  intros. split.
  - assert (~ (k <= -2)%Z); [|lia]. intros C. assert (k * nn <= -2 * nn)%Z by nia. lia.
  - assert (~ (2 <= k)%Z); [|lia]. intros C. assert (2 * nn <= k * nn)%Z by nia. lia.
Qed.
Lemma wrap_back nn l u c k : (3 <= nn)%Z -> (0 <= c < nn)%Z -> (-1 <= k <= 1)%Z -> (-2 <= c + k * nn)%Z -> wrap nn l u (c + k * nn)%Z = (c, IZR k * (u - l)).
Proof.
  intros Hnn Hc Hk Hlo. unfold wrap. assert (K : k = (-1)%Z \/ k = 0%Z \/ k = 1%Z) by lia.
  destruct K as [-> |[-> | ->]].
  - replace (c + -1 * nn)%Z with (- (nn - c))%Z in * by lia. destruct (_ <? 0)%Z eqn:E; [|lia].
    rewrite Z.rem_opp_l by lia. rewrite Z.rem_small by lia. f_equal; [lia|ring].
  - replace (c + 0 * nn)%Z with c in * by lia. destruct (c <? 0)%Z eqn:E; [lia|]. destruct (nn <=? c)%Z eqn:F; [lia|]. f_equal. ring.
  - replace (c + 1 * nn)%Z with (c + nn)%Z in * by lia. destruct (_ <? 0)%Z eqn:E; [lia|]. destruct (nn <=? c + nn)%Z eqn:F; [|lia].
    rewrite Z.rem_mod_nonneg by lia. replace (c + nn)%Z with (c + 1 * nn)%Z by lia. rewrite Z.mod_add, Z.mod_small by lia. f_equal. ring.
Qed.
Lemma wrap_range nn l u i : (3 <= nn -> -2 <= i < nn + 3 -> 0 <= fst (wrap nn l u i) < nn)%Z.
Proof.
  intros Hnn Hi. unfold wrap. destruct (i <? 0)%Z eqn:E.
  - cbn [fst]. assert (Z.rem i nn = i)%Z; [|lia]. replace i with (- - i)%Z at 1 by lia. rewrite Z.rem_opp_l by lia. rewrite Z.rem_small by lia. lia.
  - destruct (nn <=? i)%Z eqn:F; cbn; [|lia]. apply Z.rem_bound_pos; lia.
Qed.

Lemma wrapped_true g l p : holds n m g l -> check_distance r lo hi true p g l = Some true ->
  in_domain [fst (cell p); snd (cell p)] [n; m] /\ get g [fst (cell p); snd (cell p)] = Some (-1)%Z /\
  forall q, In q l -> forall k j, r <= dist p (image lo hi q k j).
Proof.
  intros (W & Hs & Hv) H. destruct (check_dom r lo hi true n m g l p W H) as [Dp Gp].
  split; [exact Dp|]. split; [exact Gp|]. intros q Q k j. apply close_dist; [exact Hr|]. intros C.
  apply In_nth_error in Q as [a K]. destruct (Hs a q K) as [Dq Gq].
  pose proof (close_cells r lo Hr p _ C) as N.
  assert (EC : cell (image lo hi q k j) = (fst (cell q) + k * n, snd (cell q) + j * m)%Z).
  { unfold PdModel.cell, image. cbn. rewrite Ln, Lm, !floor_period. reflexivity. }
  rewrite EC in N. cbn [fst snd] in N.
  unfold check_distance in H. pose proof W as [_ D]. 
  assert (D0 : domain g 0 = n) by (unfold domain; now rewrite D). assert (D1 : domain g 1 = m) by (unfold domain; now rewrite D).
  rewrite D0, D1 in H.
  destruct (cell p) as [ci cj]. cbn [fst snd] in *. apply dom2 in Dp. apply dom2 in Dq. rewrite Gp in H.
  destruct (_ || _ || _ || _) eqn:B in H; [lia|]. cbn [negb Z.eqb Z.opp Pos.eqb] in H.
  pose proof (near_period n ci (fst (cell q)) k Hn (proj1 Dp) (proj1 Dq) (proj1 N)) as Kk.
  pose proof (near_period m cj (snd (cell q)) j Hm (proj2 Dp) (proj2 Dq) (proj2 N)) as Kj.
  destruct (scan_true r lo hi true g l p _ H (fst (cell q) + k * n)%Z (snd (cell q) + j * m)%Z
     (fst (cell q)) (snd (cell q)) (IZR k * (fst hi - fst lo), IZR j * (snd hi - snd lo))) as (c & Gc & Hc).
  - apply in_prod; apply in_zrange; lia.
  - unfold look. rewrite D0, D1. rewrite !wrap_back by lia. reflexivity.
  - rewrite Gq in Gc. injection Gc as <-. destruct Hc as [Hc|(q' & Nq & NC)]; [lia|].
    rewrite Nat2Z.id, K in Nq. injection Nq as <-. exact (NC C).
Qed.
Lemma wrapped_defined g l p : holds n m g l -> roomy n m g -> exists b, check_distance r lo hi true p g l = Some b.
Proof.
  intros Hh Ro. pose proof Hh as (W & _). unfold check_distance. pose proof W as [_ D].
  assert (D0 : domain g 0 = n) by (unfold domain; now rewrite D). assert (D1 : domain g 1 = m) by (unfold domain; now rewrite D).
  rewrite D0, D1. destruct (cell p) as [i j] eqn:E.
  destruct (_ || _ || _ || _) eqn:B; [eauto|].
  apply orb_false_iff in B as [B B4]. apply orb_false_iff in B as [B B3]. apply orb_false_iff in B as [B1 B2].
  destruct (get_roomy n m g i j Ro ltac:(lia) ltac:(lia)) as [c ->]. destruct (negb _); [eauto|].
  eapply scan_defined; eauto. intros a b I. apply in_prod_iff in I as [I1 I2]. apply in_zrange in I1, I2.
  unfold look. rewrite D0, D1.
  pose proof (wrap_range n (fst lo) (fst hi) a Hn ltac:(lia)). pose proof (wrap_range m (snd lo) (snd hi) b Hm ltac:(lia)).
  destruct (wrap n (fst lo) (fst hi) a), (wrap m (snd lo) (snd hi) b). cbn in *. apply dom2. lia.
Qed.
Lemma image_sym p q : (forall k j, r <= dist p (image lo hi q k j)) -> forall k j, r <= dist q (image lo hi p k j).
Proof.
  intros H k j. specialize (H (- k) (- j))%Z. eapply Rle_trans; [exact H|]. right. unfold dist, image. cbn. rewrite !opp_IZR. f_equal. ring.
Qed.
End Periodic.
