(* What checkDistance decides, without periodicity; definedness of both variants. *)
From Coq Require Import Reals Lra Psatz.
From Verif Require Import Prelude PdModel PdSpec PdProofs.
Local Open Scope R_scope.

Lemma floor_bounds x : IZR (Int_part x) <= x < IZR (Int_part x) + 1.
Proof. destruct (base_Int_part x). lra. Qed.
Lemma ceil_bounds x : x <= IZR (ceil x) < x + 1.
Proof. unfold ceil. rewrite opp_IZR. pose proof (floor_bounds (- x)). lra. Qed.
Lemma IZR_lt_le a b : IZR a < IZR b + 1 -> (a <= b)%Z.
Proof. intros H. apply Z.lt_succ_r, lt_IZR. rewrite succ_IZR. lra. Qed.
Lemma sqr_pos_lt a b : 0 <= b -> a * a < b * b -> - b < a < b.
Proof. intros Hb H. split; nra. Qed.

Section Check.
Variables (r : R) (lo hi : pt) (per : bool).
Hypothesis Hr : 0 < r.
Notation h := (h r).
Notation cell := (cell r lo).

Lemma h_pos : 0 < h.
Proof. unfold PdModel.h. apply Rdiv_lt_0_compat; [lra|]. apply sqrt_lt_R0. lra. Qed.
Lemma h_sqr : 2 * (h * h) = r * r.
Proof.
  unfold PdModel.h. pose proof (sqrt_sqrt 2 ltac:(lra)) as E. pose proof (sqrt_lt_R0 2 ltac:(lra)).
  replace (2 * (r / sqrt 2 * (r / sqrt 2))) with (2 * (r * r) / (sqrt 2 * sqrt 2)) by (field; lra). rewrite E. field.
Qed.
Lemma r_lt_2h : r < 2 * h.
Proof. pose proof h_pos. pose proof h_sqr. nra. Qed.

Lemma floor_div l x : IZR (Int_part ((x - l) / h)) * h <= x - l < (IZR (Int_part ((x - l) / h)) + 1) * h.
Proof.
  pose proof h_pos as P. pose proof (floor_bounds ((x - l) / h)) as [A B].
  assert (E : (x - l) / h * h = x - l) by (field; lra).
  split; [rewrite <- E at 2; apply Rmult_le_compat_r; lra | rewrite <- E at 1; apply Rmult_lt_compat_r; lra].
Qed.
Lemma div_close l x y : - r < x - y < r ->
  (Int_part ((x - l) / h) - 2 <= Int_part ((y - l) / h) < Int_part ((x - l) / h) + 3)%Z.
Proof.
  intros H. pose proof h_pos as P. pose proof r_lt_2h.
  pose proof (floor_div l x) as [A B]. pose proof (floor_div l y) as [C D].
  set (a := Int_part ((x - l) / h)) in *. set (b := Int_part ((y - l) / h)) in *.
  split.
  - apply Z.le_sub_le_add_r, IZR_lt_le. rewrite plus_IZR.
    assert (Q : IZR a * h < (IZR b + 2 + 1) * h) by lra. apply Rmult_lt_reg_r in Q; lra.
  - assert (b <= a + 2)%Z; [|lia]. apply IZR_lt_le. rewrite plus_IZR.
    assert (Q : IZR b * h < (IZR a + 2 + 1) * h) by lra. apply Rmult_lt_reg_r in Q; lra.
Qed.
Definition close (p q : pt) : Prop := norm_sqr (fst p - fst q, snd p - snd q) < r * r.
Lemma close_cells p q : close p q ->
  (fst (cell p) - 2 <= fst (cell q) < fst (cell p) + 3 /\ snd (cell p) - 2 <= snd (cell q) < snd (cell p) + 3)%Z.
Proof.
  unfold close, norm_sqr. cbn. intros H. 
  assert (0 <= (fst p - fst q) * (fst p - fst q)) by apply Rle_0_sqr. assert (0 <= (snd p - snd q) * (snd p - snd q)) by apply Rle_0_sqr.
  split; apply div_close; apply sqr_pos_lt; lra.
Qed.
Lemma same_cell_close p q : cell p = cell q -> close p q.
Proof.
  unfold PdModel.cell, close, norm_sqr. cbn. intros E. injection E as E1 E2.
  pose proof h_pos. pose proof h_sqr.
  pose proof (floor_div (fst lo) (fst p)). pose proof (floor_div (fst lo) (fst q)). rewrite E1 in *.
  pose proof (floor_div (snd lo) (snd p)). pose proof (floor_div (snd lo) (snd q)). rewrite E2 in *.
  assert (- h < fst p - fst q < h) by lra. assert (- h < snd p - snd q < h) by lra.
  assert ((fst p - fst q) * (fst p - fst q) < h * h) by nra. assert ((snd p - snd q) * (snd p - snd q) < h * h) by nra. lra.
Qed.
Lemma close_dist p q : ~ close p q <-> r <= dist p q.
Proof.
  unfold close, norm_sqr, dist. cbn.
  set (d := (fst p - fst q) * (fst p - fst q) + (snd p - snd q) * (snd p - snd q)).
  assert (0 <= d) by (apply Rplus_le_le_0_compat; apply Rle_0_sqr). split.
  - intros H1. apply Rnot_lt_le in H1. rewrite <- (sqrt_square r) by lra. now apply sqrt_le_1_alt.
  - intros H1 H2. pose proof (sqrt_sqrt d ltac:(lra)). nra.
Qed.

Notation holds := (records r lo).

(* the neighbour cell visited for (i, j), and its shift *)
Definition look (g : dense) (i j : Z) : Z * Z * pt :=
  let '(i', sx) := if per then wrap (domain g 0) (fst lo) (fst hi) i else (i, 0) in
  let '(j', sy) := if per then wrap (domain g 1) (snd lo) (snd hi) j else (j, 0) in (i', j', (sx, sy)).
Definition shift (q s : pt) : pt := (fst q + fst s, snd q + snd s).
Lemma scan_true g l p cells : scan r lo hi per g l p cells = Some true ->
  forall i j i' j' s, In (i, j) cells -> look g i j = (i', j', s) ->
  exists k, get g [i'; j'] = Some k /\ (k = (-1)%Z \/ exists q, nth_error l (Z.to_nat k) = Some q /\ ~ close p (shift q s)).
Proof.
  induction cells as [|[a b] rest IH]; [cbn; tauto|]. cbn [scan]. intros H i j i' j' s [E|I] L.
  - injection E as -> ->. unfold look in L.
    destruct (if per then wrap (domain g 0) (fst lo) (fst hi) i else (i, 0)) as [i1 sx].
    destruct (if per then wrap (domain g 1) (snd lo) (snd hi) j else (j, 0)) as [j1 sy].
    injection L as -> -> <-.
    destruct (get g [i'; j']) as [k|]; [|discriminate]. exists k. split; [reflexivity|].
    destruct (Z.eqb_spec k (-1)); [tauto|]. right.
    destruct (nth_error l (Z.to_nat k)) as [q|]; [|discriminate]. exists q. split; [reflexivity|].
    destruct (Rlt_dec _ _) as [|N]; [discriminate|]. exact N.
  - assert (S : scan r lo hi per g l p rest = Some true).
    { destruct (if per then wrap (domain g 0) (fst lo) (fst hi) a else (a, 0)) as [i1 sx].
      destruct (if per then wrap (domain g 1) (snd lo) (snd hi) b else (b, 0)) as [j1 sy].
      destruct (get g [i1; j1]) as [k|]; [|discriminate]. destruct (Z.eqb k (-1)); [exact H|].
      destruct (nth_error l (Z.to_nat k)); [|discriminate]. destruct (Rlt_dec _ _); [discriminate|exact H]. }
    eapply IH; eauto.
Qed.
Lemma scan_false g l p cells : scan r lo hi per g l p cells = Some false ->
  exists i j k q, In (i, j) cells /\ nth_error l k = Some q /\ close p (shift q (snd (look g i j))).
Proof.
  induction cells as [|[a b] rest IH]; [discriminate|]. cbn [scan]. intros H.
  assert (T : scan r lo hi per g l p rest = Some false ->
    exists i j k q, In (i, j) ((a, b) :: rest) /\ nth_error l k = Some q /\ close p (shift q (snd (look g i j)))).
  { intros S. destruct (IH S) as (i & j & k & q & I & N & C). exists i, j, k, q. split; [now right|]. tauto. }
  destruct (look g a b) as [[u v] w] eqn:LK. pose proof LK as Heq. unfold look in LK.
  destruct (if per then wrap (domain g 0) (fst lo) (fst hi) a else (a, 0)) as [i1 sx].
  destruct (if per then wrap (domain g 1) (snd lo) (snd hi) b else (b, 0)) as [j1 sy].
  destruct (get g [i1; j1]) as [k|]; [|discriminate]. destruct (Z.eqb k (-1)); [tauto|].
  destruct (nth_error l (Z.to_nat k)) as [q|] eqn:N; [|discriminate].
  destruct (Rlt_dec _ _) as [C|]; [|tauto]. exists a, b, (Z.to_nat k), q.
  split; [now left|]. split; [exact N|]. rewrite Heq. injection LK as _ _ <-. exact C.
Qed.
Lemma scan_defined g l p cells n m : holds n m g l -> roomy n m g ->
  (forall i j, In (i, j) cells -> in_domain [fst (fst (look g i j)); snd (fst (look g i j))] [n; m]) ->
  exists b, scan r lo hi per g l p cells = Some b.
Proof.
  intros (W & _ & Hv) Ro. induction cells as [|[a b] rest IH]; intros D; [eexists; reflexivity|].
  destruct (IH ltac:(intros; apply D; now right)) as [b' IHb]. cbn [scan].
  pose proof (D a b ltac:(now left)) as Dab. unfold look in Dab.
  destruct (if per then wrap (domain g 0) (fst lo) (fst hi) a else (a, 0)) as [i1 sx].
  destruct (if per then wrap (domain g 1) (snd lo) (snd hi) b else (b, 0)) as [j1 sy]. cbn [fst snd] in Dab.
  pose proof (proj1 (dom2 _ _ _ _) Dab) as [D1 D2].
  destruct (get_roomy n m g i1 j1 Ro D1 D2) as [k G]. rewrite G.
  destruct (Z.eqb_spec k (-1)); [rewrite IHb; eauto|].
  destruct (Hv i1 j1 k Dab G) as [|(k' & q & -> & N & _)]; [contradiction|].
  rewrite Nat2Z.id, N. destruct (Rlt_dec _ _); [eauto|]. rewrite IHb; eauto.
Qed.
Lemma check_dom n m g l p : wf n m g -> check_distance r lo hi per p g l = Some true ->
  in_domain [fst (cell p); snd (cell p)] [n; m] /\ get g [fst (cell p); snd (cell p)] = Some (-1)%Z.
Proof.
  intros [_ D] H. unfold check_distance, domain in H. rewrite D in H. cbn [nth] in H.
  destruct (cell p) as [i j] eqn:E. cbn [fst snd].
  destruct (_ || _ || _ || _) eqn:B in H; [discriminate|].
  apply orb_false_iff in B as [B B4]. apply orb_false_iff in B as [B B3]. apply orb_false_iff in B as [B1 B2].
  split; [apply dom2; lia|]. destruct (get g [i; j]) as [c|]; [|discriminate].
  destruct (Z.eqb_spec c (-1)); [now subst|discriminate].
Qed.
End Check.

Section Plain.
Variables (r : R) (lo hi : pt).
Hypothesis Hr : 0 < r.
Notation cell := (cell r lo).
Notation holds := (records r lo).
Notation close := (close r).

Lemma shift0 q : shift q (0, 0) = q.
Proof. unfold shift. destruct q. cbn. now rewrite !Rplus_0_r. Qed.
Lemma check_true n m g l p : holds n m g l -> check_distance r lo hi false p g l = Some true ->
  in_domain [fst (cell p); snd (cell p)] [n; m] /\ get g [fst (cell p); snd (cell p)] = Some (-1)%Z /\
  forall q, In q l -> ~ close p q.
Proof.
  intros (W & Hs & Hv) H. destruct (check_dom r lo hi false n m g l p W H) as [Dp Gp].
  split; [exact Dp|]. split; [exact Gp|]. intros q Q C.
  apply In_nth_error in Q as [k K]. destruct (Hs k q K) as [Dq Gq].
  pose proof (close_cells r lo Hr p q C) as N.
  unfold check_distance, domain in H. pose proof W as [_ D]. rewrite D in H. cbn [nth] in H.
  destruct (cell p) as [i j]. cbn [fst snd] in *. apply dom2 in Dp. rewrite Gp in H.
  destruct (_ || _ || _ || _) eqn:B in H; [lia|]. cbn [negb Z.eqb Z.opp Pos.eqb] in H.
  apply dom2 in Dq.
  destruct (scan_true r lo hi false g l p _ H (fst (cell q)) (snd (cell q)) (fst (cell q)) (snd (cell q)) (0, 0)) as (c & Gc & Hc).
  - apply in_prod; apply in_zrange; lia.
  - reflexivity.
  - rewrite Gq in Gc. injection Gc as <-. destruct Hc as [Hc|(q' & Nq & NC)]; [lia|].
    rewrite Nat2Z.id, K in Nq. injection Nq as <-. rewrite shift0 in NC. exact (NC C).
Qed.
Lemma check_false n m g l p : holds n m g l -> check_distance r lo hi false p g l = Some false ->
  ~ in_domain [fst (cell p); snd (cell p)] [n; m] \/ exists q, In q l /\ close p q.
Proof.
  intros (W & Hs & Hv) H. unfold check_distance, domain in H. pose proof W as [_ D]. rewrite D in H. cbn [nth] in H.
  destruct (cell p) as [i j] eqn:E. cbn [fst snd] in *.
  destruct (_ || _ || _ || _) eqn:B in H; [left; rewrite dom2; lia|]. right.
  apply orb_false_iff in B as [B B4]. apply orb_false_iff in B as [B B3]. apply orb_false_iff in B as [B1 B2].
  destruct (get g [i; j]) as [c|] eqn:G; [|discriminate].
  destruct (Z.eqb_spec c (-1)).
  - cbn [negb] in H. apply scan_false in H as (a & b & k & q & _ & N & C).
    exists q. split; [eapply nth_error_In; eauto|]. cbn in C. now rewrite shift0 in C.
  - destruct (Hv i j c ltac:(apply dom2; lia) G) as [|(k & q & _ & N & Cq)]; [contradiction|].
    exists q. split; [eapply nth_error_In; eauto|]. apply (same_cell_close r lo Hr). congruence.
Qed.
Lemma check_defined n m g l p : holds n m g l -> roomy n m g -> exists b, check_distance r lo hi false p g l = Some b.
Proof.
  intros Hh Ro. pose proof Hh as (W & _). unfold check_distance, domain. pose proof W as [_ D]. rewrite D. cbn [nth].
  destruct (cell p) as [i j] eqn:E.
  destruct (_ || _ || _ || _) eqn:B; [eauto|].
  apply orb_false_iff in B as [B B4]. apply orb_false_iff in B as [B B3]. apply orb_false_iff in B as [B1 B2].
  destruct (get_roomy n m g i j Ro ltac:(lia) ltac:(lia)) as [c ->]. destruct (negb _); [eauto|].
  eapply scan_defined; eauto. intros a b I. apply in_prod_iff in I as [I1 I2]. apply in_zrange in I1, I2. cbn. apply dom2. lia.
Qed.
End Plain.
