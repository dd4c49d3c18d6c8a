From Verif Require Import Prelude ColorModel ColorSpec ColorProofs.
Open Scope Z_scope.

Section P.
Variables (adj : list (list nat)) (ws : list Z) (top : Z).
Hypothesis Hlen : length adj = length ws.
Hypothesis Hsym : symmetric adj.
Notation n := (length ws).
Notation wt := (wt ws).
Notation nb := (nb adj).
Hypothesis Htop : Z.of_nat n + 2 < top.
Notation mk m v := (nth v m 0%nat).
Notation col c v := (nth v c top).
Notation fmin := (free_min adj ws).

Lemma fmin_spec m v : fmin m v = true <-> forall u, In u (nb v) -> mk m u = 0%nat -> wt v <= wt u.
Proof.
  unfold free_min, free. rewrite forallb_forall. split; intros H u Hu; specialize (H u Hu).
  - intro E. rewrite E in H. cbn in H. lia.
  - destruct (Nat.eqb (mk m u) 0) eqn:E; [|reflexivity]. apply Nat.eqb_eq in E. specialize (H E). cbn. lia.
Qed.
Lemma not_expanded m : expanded adj ws m = false -> forall v, (v < n)%nat -> mk m v <> 0%nat.
Proof.
  intros D v Hv E. destruct (argmin_where wt (fun x => free m x) (seq 0 n) v) as (x & Hx & Px & Hm); [apply in_seq; lia|unfold free; rewrite E; reflexivity|].
  assert (Q : expanded adj ws m = true); [|congruence]. unfold expanded, nverts. apply existsb_exists. exists x. split; [exact Hx|]. rewrite Px. cbn [andb].
  apply fmin_spec. intros u Hu Eu. apply Hm; [apply in_seq; apply (nb_lt adj ws Hlen Hsym) in Hu; lia|unfold free; rewrite Eu; reflexivity].
Qed.
Definition cnt (m : list nat) : nat := num (fun v => Nat.eqb (mk m v) 1) (seq 0 n).
Lemma cnt_le m : (cnt m <= n)%nat.
Proof. unfold cnt. pose proof (num_le (fun v => Nat.eqb (mk m v) 1) (seq 0 n)) as L. rewrite seq_length in L. exact L. Qed.

(** colours 1..color are finished; colour color + 1 is being assigned *)
Record EI (m : list nat) (c : list Z) (color : Z) : Prop := {
  ei_01 : forall v, (v < n)%nat -> (mk m v <= 2)%nat;
  ei_col : forall v, (v < n)%nat -> mk m v = 1%nat -> 1 <= col c v <= color + 1;
  ei_top : forall v, (v < n)%nat -> mk m v <> 1%nat -> col c v = top;
  ei_ex : forall v, (v < n)%nat -> mk m v = 2%nat -> exists u, In u (nb v) /\ col c u = color + 1;
  ei_prop : weights_differ adj ws -> forall v u, In u (nb v) -> u <> v -> mk m v = 1%nat -> mk m u = 1%nat -> col c v <> col c u;
  ei_greedy : forall v d, (v < n)%nat -> 1 <= d <= color -> d < col c v -> exists u, In u (nb v) /\ col c u = d;
  ei_color : 0 <= color <= Z.of_nat n }.

Section Paint.
Variables (m : list nat) (c : list Z) (color : Z).
Hypothesis I : EI m c color.
Hypothesis Hfree : forall v u, (v < n)%nat -> mk m v = 0%nat -> In u (nb v) -> col c u <> color + 1.
Notation c1 := (max_colors adj ws top m c color).
Notation m1 := (max_mask ws top m c1 color).
Lemma c1_eq v : (v < n)%nat -> col c1 v = if Nat.eqb (mk m v) 0 && fmin m v then color + 1 else col c v.
Proof.
  intro Hv. unfold max_colors. rewrite nth_tab by exact Hv. unfold free. destruct (Nat.eqb (mk m v) 0); cbn [negb andb]; [|reflexivity].
  destruct (fmin m v); reflexivity.
Qed.
Lemma m1_eq v : (v < n)%nat -> mk m1 v = if Nat.eqb (mk m v) 0 && fmin m v then 1%nat else mk m v.
Proof.
  intro Hv. unfold max_mask. rewrite nth_tab by exact Hv. unfold free. destruct (Nat.eqb (mk m v) 0) eqn:E; cbn [negb andb]; [|reflexivity].
  rewrite c1_eq by exact Hv. rewrite E. cbn [andb]. destruct (fmin m v); [rewrite Z.eqb_refl; reflexivity|]. apply Nat.eqb_eq in E.
  rewrite (ei_top _ _ _ I v Hv) by lia. pose proof (ei_color _ _ _ I). replace (top =? color + 1) with false by lia. reflexivity.
Qed.
Lemma paint_ok : EI m1 c1 color.
Proof.
  pose proof (ei_color _ _ _ I) as CL. constructor.
  - intros v Hv. rewrite m1_eq by exact Hv. pose proof (ei_01 _ _ _ I v Hv). destruct (_ && _); lia.
  - intros v Hv. rewrite m1_eq, c1_eq by exact Hv. pose proof (ei_col _ _ _ I v Hv). destruct (_ && _); [lia|assumption].
  - intros v Hv. rewrite m1_eq, c1_eq by exact Hv. destruct (_ && _); [lia|]. apply (ei_top _ _ _ I v Hv).
  - intros v Hv. rewrite m1_eq by exact Hv. destruct (_ && _); [lia|]. intro E. destruct (ei_ex _ _ _ I v Hv E) as (u & Hu & Ec).
    exists u. split; [exact Hu|]. destruct (nb_lt adj ws Hlen Hsym _ _ Hu) as [Lu _]. rewrite c1_eq by exact Lu. destruct (_ && _); [reflexivity|exact Ec].
  - intros D v u Hu Hne Ev Eu. destruct (nb_lt adj ws Hlen Hsym _ _ Hu) as [Lu Lv]. rewrite m1_eq in Ev, Eu by assumption. rewrite !c1_eq by assumption.
    pose proof (D v u (proj1 (nb_adj adj v u) Hu) Hne) as Hw. fold (wt v) (wt u) in Hw. pose proof (nb_sym adj Hsym _ _ Hu) as Hu'.
    destruct (Nat.eqb (mk m v) 0 && fmin m v) eqn:Pv, (Nat.eqb (mk m u) 0 && fmin m u) eqn:Pu.
    + apply andb_prop in Pv, Pu. destruct Pv as [P1 P2], Pu as [P3 P4]. apply Nat.eqb_eq in P1, P3.
      pose proof (proj1 (fmin_spec m v) P2 u Hu P3). pose proof (proj1 (fmin_spec m u) P4 v Hu' P1). lia.
    + apply andb_prop in Pv. destruct Pv as [P1 P2]. apply Nat.eqb_eq in P1. apply not_eq_sym. apply (Hfree v u); assumption.
    + apply andb_prop in Pu. destruct Pu as [P1 P2]. apply Nat.eqb_eq in P1. apply (Hfree u v); assumption.
    + apply (ei_prop _ _ _ I D); assumption.
  - intros v d Hv Hd Hlt. assert (Hlt' : d < col c v).
    { rewrite c1_eq in Hlt by exact Hv. destruct (Nat.eqb (mk m v) 0 && fmin m v) eqn:Pv; [|exact Hlt]. apply andb_prop in Pv. destruct Pv as [P1 _]. apply Nat.eqb_eq in P1.
      rewrite (ei_top _ _ _ I v Hv) by lia. lia. }
    destruct (ei_greedy _ _ _ I v d Hv Hd Hlt') as (u & Hu & Ec). exists u. split; [exact Hu|]. destruct (nb_lt adj ws Hlen Hsym _ _ Hu) as [Lu _]. rewrite c1_eq by exact Lu.
    destruct (Nat.eqb (mk m u) 0 && fmin m u) eqn:Pu; [|exact Ec]. apply andb_prop in Pu. destruct Pu as [P1 _]. apply Nat.eqb_eq in P1.
    rewrite (ei_top _ _ _ I u Lu) in Ec by lia. lia.
  - exact CL.
Qed.
Lemma paint_cnt : expanded adj ws m = true -> (cnt m < cnt m1)%nat.
Proof.
  intro E. unfold expanded, nverts in E. apply existsb_exists in E. destruct E as (x & Hx & E). apply andb_prop in E. destruct E as [E1 E2].
  unfold free in E1. unfold cnt. apply (num_lt _ _ _ x).
  - intros y Hy Ey. apply Nat.eqb_eq in Ey. rewrite m1_eq by (apply in_seq in Hy; lia). rewrite Ey. reflexivity.
  - exact Hx.
  - apply Nat.eqb_eq in E1. rewrite E1. reflexivity.
  - rewrite m1_eq by (apply in_seq in Hx; lia). rewrite E1, E2. reflexivity.
Qed.
Lemma paint_none : expanded adj ws m = false -> forall v, (v < n)%nat -> mk m1 v = mk m v /\ mk m v <> 0%nat.
Proof.
  intros E v Hv. pose proof (not_expanded m E v Hv) as N. split; [|exact N]. rewrite m1_eq by exact Hv. apply Nat.eqb_neq in N. rewrite N. reflexivity.
Qed.
End Paint.

Lemma exclude_eq m c color v : (v < n)%nat -> mk (exclude adj ws top m c color) v =
  if Nat.eqb (mk m v) 0 && existsb (fun u => col c u =? color + 1) (nb v) then 2%nat else mk m v.
Proof.
  intro Hv. unfold exclude. rewrite nth_tab by exact Hv. unfold free. destruct (Nat.eqb (mk m v) 0); cbn [negb andb]; [|reflexivity]. destruct (existsb _ _); reflexivity.
Qed.
Lemma exclude_ok m c color : EI m c color -> EI (exclude adj ws top m c color) c color /\ cnt (exclude adj ws top m c color) = cnt m /\
  (forall v u, (v < n)%nat -> mk (exclude adj ws top m c color) v = 0%nat -> In u (nb v) -> col c u <> color + 1).
Proof.
  intro I. split; [|split].
  - constructor.
    + intros v Hv. rewrite exclude_eq by exact Hv. pose proof (ei_01 _ _ _ I v Hv). destruct (_ && _); lia.
    + intros v Hv. rewrite exclude_eq by exact Hv. destruct (_ && _); [lia|apply (ei_col _ _ _ I v Hv)].
    + intros v Hv. rewrite exclude_eq by exact Hv. destruct (Nat.eqb (mk m v) 0) eqn:E; cbn [andb]; [apply Nat.eqb_eq in E|apply (ei_top _ _ _ I v Hv)].
      intros _. apply (ei_top _ _ _ I v Hv). lia.
    + intros v Hv. rewrite exclude_eq by exact Hv. destruct (Nat.eqb (mk m v) 0 && existsb (fun u => col c u =? color + 1) (nb v)) eqn:E; [|apply (ei_ex _ _ _ I v Hv)].
      intros _. apply andb_prop in E. destruct E as [_ E]. apply existsb_exists in E. destruct E as (u & Hu & Eu). apply Z.eqb_eq in Eu. eauto.
    + intros D v u Hu Hne. destruct (nb_lt adj ws Hlen Hsym _ _ Hu) as [Lu Lv]. rewrite !exclude_eq by assumption.
      destruct (_ && _); [lia|]. destruct (_ && _); [lia|]. apply (ei_prop _ _ _ I D); assumption.
    + exact (ei_greedy _ _ _ I).
    + exact (ei_color _ _ _ I).
  - unfold cnt, num. f_equal. apply filter_ext_in. intros v Hv. apply in_seq in Hv. rewrite exclude_eq by lia.
    destruct (Nat.eqb (mk m v) 0) eqn:E; cbn [andb]; [|reflexivity]. apply Nat.eqb_eq in E. rewrite E. destruct (existsb _ _); reflexivity.
  - intros v u Hv. rewrite exclude_eq by exact Hv. destruct (Nat.eqb (mk m v) 0) eqn:E; cbn [andb].
    + destruct (existsb (fun u => col c u =? color + 1) (nb v)) eqn:Ex; [lia|]. intros _ Hu Ec.
      assert (Q : existsb (fun u => col c u =? color + 1) (nb v) = true); [|congruence]. apply existsb_exists. exists u. split; [exact Hu|]. rewrite Ec. apply Z.eqb_refl.
    + apply Nat.eqb_neq in E. intro. contradiction.
Qed.

Lemma expand_ok fuel : forall m c color, EI m c color -> (n < fuel + cnt m)%nat ->
  exists m2 c2, expand adj ws top fuel m c color = Some (m2, c2) /\ EI m2 c2 color /\ (forall v, (v < n)%nat -> mk m2 v <> 0%nat) /\ (cnt m <= cnt m2)%nat /\
    (forall v, (v < n)%nat -> mk m v = 1%nat -> mk m2 v = 1%nat /\ col c2 v = col c v).
Proof.
  induction fuel as [|f IH]; intros m c color I Hf; [pose proof (cnt_le m); lia|]. cbn [expand].
  destruct (exclude_ok m c color I) as (I1 & E1 & F1). set (m1 := exclude adj ws top m c color) in *.
  pose proof (paint_ok m1 c color I1 F1) as I2. destruct (expanded adj ws m1) eqn:Ex.
  - pose proof (paint_cnt m1 c color I1 Ex) as Lt. destruct (IH _ _ _ I2) as (m2 & c2 & R & I3 & N & Le & K); [lia|].
    exists m2, c2. split; [exact R|]. split; [exact I3|]. split; [exact N|]. split; [lia|]. intros v Hv E.
    destruct (K v Hv) as [K1 K2]; [rewrite m1_eq by assumption; unfold m1; rewrite exclude_eq, E by exact Hv; reflexivity|]. split; [exact K1|].
    rewrite K2, c1_eq by exact Hv. unfold m1. rewrite exclude_eq, E by exact Hv. reflexivity.
  - eexists _, _. split; [reflexivity|]. split; [exact I2|]. pose proof (paint_none m1 c color I1 Ex) as PN. split; [|split].
    + intros v Hv. destruct (PN v Hv) as [-> ?]. assumption.
    + rewrite <- E1. apply num_mono. intros v Hv. apply in_seq in Hv. destruct (PN v ltac:(lia)) as [-> _]. auto.
    + intros v Hv E. rewrite m1_eq, c1_eq by assumption. unfold m1. rewrite exclude_eq, E by exact Hv. split; reflexivity.
Qed.

(** between rounds *)
Record RI (m : list nat) (c : list Z) (color : Z) : Prop := {
  ri_01 : forall v, (v < n)%nat -> (mk m v <= 1)%nat;
  ri_col : forall v, (v < n)%nat -> mk m v = 1%nat -> 1 <= col c v <= color;
  ri_top : forall v, (v < n)%nat -> mk m v <> 1%nat -> col c v = top;
  ri_prop : weights_differ adj ws -> forall v u, In u (nb v) -> u <> v -> mk m v = 1%nat -> mk m u = 1%nat -> col c v <> col c u;
  ri_greedy : forall v d, (v < n)%nat -> 1 <= d <= color -> d < col c v -> exists u, In u (nb v) /\ col c u = d;
  ri_hit : color = 0 \/ exists v, (v < n)%nat /\ mk m v = 1%nat /\ col c v = color;
  ri_color : 0 <= color <= Z.of_nat (cnt m) }.
Lemma RI_EI m c color : RI m c color -> EI m c color.
Proof.
  intro I. pose proof (cnt_le m). pose proof (ri_color _ _ _ I). constructor.
  - intros v Hv. pose proof (ri_01 _ _ _ I v Hv). lia.
  - intros v Hv E. pose proof (ri_col _ _ _ I v Hv E). lia.
  - exact (ri_top _ _ _ I).
  - intros v Hv E. pose proof (ri_01 _ _ _ I v Hv). lia.
  - exact (ri_prop _ _ _ I).
  - exact (ri_greedy _ _ _ I).
  - lia.
Qed.
Lemma unexclude_eq m v : (v < n)%nat -> mk (unexclude ws m) v = if Nat.eqb (mk m v) 2 then 0%nat else mk m v.
Proof. intro Hv. unfold unexclude. apply (nth_tab ws (fun v => if Nat.eqb (mk m v) 2 then 0%nat else mk m v)). exact Hv. Qed.
Lemma unexclude_cnt m : cnt (unexclude ws m) = cnt m.
Proof.
  unfold cnt, num. f_equal. apply filter_ext_in. intros v Hv. apply in_seq in Hv. rewrite unexclude_eq by lia.
  destruct (Nat.eqb (mk m v) 2) eqn:E; [apply Nat.eqb_eq in E; rewrite E|]; reflexivity.
Qed.
Lemma max_loop_ok fuel : forall m c color, RI m c color -> (n < fuel + cnt m)%nat ->
  exists cs k, max_loop adj ws top fuel m c color = Some (cs, k) /\ complete n cs k /\ (weights_differ adj ws -> proper adj cs) /\ greedy adj cs /\ (k = 0 \/ In k cs).
Proof.
  induction fuel as [|f IH]; intros m c color I Hf; [pose proof (cnt_le m); lia|]. cbn [max_loop]. pose proof (RI_EI _ _ _ I) as I0.
  assert (Hfree : forall v u, (v < n)%nat -> mk m v = 0%nat -> In u (nb v) -> col c u <> color + 1).
  { intros v u Hv _ Hu. destruct (nb_lt adj ws Hlen Hsym _ _ Hu) as [Lu _]. destruct (Nat.eq_dec (mk m u) 1) as [E|N].
    - pose proof (ri_col _ _ _ I u Lu E). lia.
    - rewrite (ri_top _ _ _ I u Lu N). pose proof (ei_color _ _ _ I0). lia. }
  pose proof (paint_ok m c color I0 Hfree) as I1. destruct (expanded adj ws m) eqn:Ex; cbn [negb].
  - pose proof (paint_cnt m c color I0 Ex) as Lt. destruct (expand_ok (S (S (nverts ws))) _ _ _ I1) as (m2 & c2 & R & I2 & N & Le & K); [unfold nverts; lia|]. rewrite R.
    apply IH; [|rewrite unexclude_cnt; lia]. pose proof (ri_color _ _ _ I). constructor.
    + intros v Hv. rewrite unexclude_eq by exact Hv. pose proof (ei_01 _ _ _ I2 v Hv). destruct (Nat.eqb (mk m2 v) 2) eqn:E; [lia|]. apply Nat.eqb_neq in E. lia.
    + intros v Hv. rewrite unexclude_eq by exact Hv. destruct (Nat.eqb (mk m2 v) 2); [lia|]. apply (ei_col _ _ _ I2 v Hv).
    + intros v Hv. rewrite unexclude_eq by exact Hv. destruct (Nat.eqb (mk m2 v) 2) eqn:E; [|apply (ei_top _ _ _ I2 v Hv)]. intros _. apply Nat.eqb_eq in E. apply (ei_top _ _ _ I2 v Hv). lia.
    + intros D v u Hu Hne. destruct (nb_lt adj ws Hlen Hsym _ _ Hu) as [Lu Lv]. rewrite !unexclude_eq by assumption.
      destruct (Nat.eqb (mk m2 v) 2); [lia|]. destruct (Nat.eqb (mk m2 u) 2); [lia|]. apply (ei_prop _ _ _ I2 D); assumption.
    + intros v d Hv Hd Hlt. destruct (Z.eq_dec d (color + 1)) as [->|Nd]; [|apply (ei_greedy _ _ _ I2 v d Hv); lia].
      destruct (Nat.eq_dec (mk m2 v) 2) as [E|N2]; [exact (ei_ex _ _ _ I2 v Hv E)|]. pose proof (ei_01 _ _ _ I2 v Hv). pose proof (N v Hv).
      pose proof (ei_col _ _ _ I2 v Hv ltac:(lia)). lia.
    + right. unfold expanded, nverts in Ex. apply existsb_exists in Ex. destruct Ex as (x & Hx & E). apply andb_prop in E. destruct E as [E1 E2]. unfold free in E1.
      apply in_seq in Hx. assert (Hx' : (x < n)%nat) by lia. destruct (K x Hx') as [K1 K2]; [rewrite m1_eq, E1, E2 by assumption; reflexivity|].
      exists x. split; [exact Hx'|]. rewrite unexclude_eq, K1, K2, c1_eq, E1, E2 by exact Hx'. split; reflexivity.
    + rewrite unexclude_cnt. lia.
  - eexists _, _. split; [reflexivity|]. pose proof (not_expanded m Ex) as N. pose proof (ri_01 _ _ _ I) as Z1.
    assert (All : forall v, (v < n)%nat -> mk m v = 1%nat) by (intros v Hv; specialize (N v Hv); specialize (Z1 v Hv); lia).
    assert (Cc : forall v, (v < n)%nat -> col (max_colors adj ws top m c color) v = col c v).
    { intros v Hv. rewrite c1_eq by exact Hv. rewrite (All v Hv). reflexivity. }
    assert (L : length (max_colors adj ws top m c color) = n) by apply len_tab.
    assert (Nt : forall v x, nth_error (max_colors adj ws top m c color) v = Some x -> (v < n)%nat /\ col c v = x).
    { intros v x E. assert (Hv : (v < n)%nat) by (rewrite <- L; apply nth_error_Some; congruence). split; [exact Hv|]. rewrite <- Cc by exact Hv. apply nth_error_nth. exact E. }
    assert (Nt' : forall v, (v < n)%nat -> nth_error (max_colors adj ws top m c color) v = Some (col c v)).
    { intros v Hv. rewrite <- Cc by exact Hv. apply nth_error_nth'. lia. }
    split; [|split; [|split]].
    + split; [exact L|]. intros v x E. destruct (Nt v x E) as [Hv <-]. apply (ri_col _ _ _ I v Hv). auto.
    + intros D v u a b A Hne Ea Eb. destruct (Nt _ _ Ea) as [Hv <-]. destruct (Nt _ _ Eb) as [Hu <-]. apply (ri_prop _ _ _ I D); auto. apply nb_adj. exact A.
    + intros v a d Ea Hd. destruct (Nt _ _ Ea) as [Hv <-]. pose proof (ri_col _ _ _ I v Hv (All v Hv)).
      destruct (ri_greedy _ _ _ I v d Hv) as (u & Hu & E); [lia|lia|]. exists u. split; [apply nb_adj; exact Hu|]. destruct (nb_lt adj ws Hlen Hsym _ _ Hu) as [Lu _].
      rewrite Nt' by exact Lu. congruence.
    + destruct (ri_hit _ _ _ I) as [?|(x & Hx & _ & Ec)]; [left; assumption|right]. apply (nth_error_In _ x). rewrite Nt' by exact Hx. congruence.
Qed.
Lemma max_ok fuel : (n < fuel)%nat -> exists cs k, maximum_independent_sets adj ws top fuel = Some (cs, k) /\ complete n cs k /\ (weights_differ adj ws -> proper adj cs) /\ greedy adj cs /\ (k = 0 \/ In k cs).
Proof.
  intro Hf. unfold maximum_independent_sets. apply max_loop_ok; [|lia]. constructor.
  - intros v Hv. rewrite nth_tab by exact Hv. lia.
  - intros v Hv. rewrite nth_tab by exact Hv. discriminate.
  - intros v Hv _. rewrite nth_tab by exact Hv. reflexivity.
  - intros _ v u Hu _ E. destruct (nb_lt adj ws Hlen Hsym _ _ Hu) as [_ Lv]. rewrite nth_tab in E by exact Lv. discriminate.
  - intros. lia.
  - left. reflexivity.
  - lia.
Qed.
End P.
