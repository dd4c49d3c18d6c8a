From Verif Require Import Prelude ColorModel ColorSpec.
Open Scope Z_scope.

Lemma argmin (f : nat -> Z) (l : list nat) : l <> [] -> exists x, In x l /\ forall y, In y l -> f x <= f y.
Proof.
  induction l as [|a l IH]; intro H; [contradiction|]. destruct l as [|b l].
  - exists a. split; [left; reflexivity|]. intros y [<-|[]]. lia.
  - destruct IH as (x & Hx & Hm); [discriminate|]. destruct (Z.le_gt_cases (f a) (f x)).
    + exists a. split; [left; reflexivity|]. intros y [<-|Hy]; [lia|]. specialize (Hm y Hy). lia.
    + exists x. split; [right; exact Hx|]. intros y [<-|Hy]; [lia|auto].
Qed.
Lemma argmin_where (f : nat -> Z) (P : nat -> bool) (l : list nat) v : In v l -> P v = true ->
  exists x, In x l /\ P x = true /\ forall y, In y l -> P y = true -> f x <= f y.
Proof.
  intros Hv Pv. destruct (argmin f (filter P l)) as (x & Hx & Hm).
  - intro E. assert (Hin : In v (filter P l)) by (apply filter_In; auto). rewrite E in Hin. exact Hin.
  - apply filter_In in Hx. destruct Hx as [H1 H2]. exists x. split; [exact H1|]. split; [exact H2|]. intros y Hy Py. apply Hm. apply filter_In. auto.
Qed.
(** counting elements that satisfy a test *)
Definition num (P : nat -> bool) (l : list nat) : nat := length (filter P l).
Lemma num_le P l : (num P l <= length l)%nat.
Proof. unfold num. induction l as [|x l IH]; cbn [filter length]; [lia|]. destruct (P x); cbn [length]; lia. Qed.
Lemma num_mono P Q l : (forall x, In x l -> P x = true -> Q x = true) -> (num P l <= num Q l)%nat.
Proof.
  unfold num. induction l as [|x l IH]; intro H; cbn [filter length]; [lia|]. specialize (IH ltac:(intros; apply H; [right; assumption|assumption])).
  destruct (P x) eqn:E; [rewrite (H x (or_introl eq_refl) E); cbn [length]; lia|]. destruct (Q x); cbn [length]; lia.
Qed.
Lemma num_lt P Q l x : (forall x, In x l -> P x = true -> Q x = true) -> In x l -> P x = false -> Q x = true -> (num P l < num Q l)%nat.
Proof.
  unfold num. induction l as [|y l IH]; intros H Hx Px Qx; [contradiction|]. cbn [filter].
  assert (Ht : forall x, In x l -> P x = true -> Q x = true) by (intros; apply H; [right; assumption|assumption]).
  destruct Hx as [<-|Hx].
  - rewrite Px, Qx. cbn [length]. pose proof (num_mono P Q l Ht). unfold num in *. lia.
  - specialize (IH Ht Hx Px Qx). destruct (P y) eqn:E; [rewrite (H y (or_introl eq_refl) E); cbn [length]; lia|]. destruct (Q y); cbn [length]; lia.
Qed.

Section P.
Variables (adj : list (list nat)) (ws : list Z) (top : Z).
Hypothesis Hlen : length adj = length ws.
Hypothesis Hsym : symmetric adj.
Notation n := (length ws).
Notation wt := (wt ws).
Notation nb := (nb adj).

Lemma nth_tab {X} (g : nat -> X) v d : (v < n)%nat -> nth v (tab ws g) d = g v.
Proof.
  intro H. unfold tab, nverts. rewrite (nth_indep _ d (g 0%nat)) by (rewrite map_length, seq_length; exact H).
  rewrite map_nth, seq_nth by exact H. reflexivity.
Qed.
Lemma len_tab {X} (g : nat -> X) : length (tab ws g) = n.
Proof. unfold tab, nverts. rewrite map_length, seq_length. reflexivity. Qed.
Lemma nb_adj v u : In u (nb v) <-> adjacent adj v u.
Proof.
  unfold ColorModel.nb, adjacent. split.
  - intro H. destruct (nth_error adj v) as [r|] eqn:E; [rewrite (nth_error_nth _ _ _ E) in H; eauto|].
    apply nth_error_None in E. rewrite nth_overflow in H by exact E. contradiction.
  - intros (r & E & H). rewrite (nth_error_nth _ _ _ E). exact H.
Qed.
Lemma nb_lt v u : In u (nb v) -> (u < n)%nat /\ (v < n)%nat.
Proof.
  intro H. apply nb_adj in H. pose proof (Hsym _ _ H) as (r & E & _). destruct H as (r' & E' & _).
  split; rewrite <- Hlen; apply nth_error_Some; congruence.
Qed.
Lemma nb_sym v u : In u (nb v) -> In v (nb u).
Proof. rewrite !nb_adj. apply Hsym. Qed.

Section Fast.
Variables (mask : list bool) (colors : list Z) (color : Z).
Notation mk v := (nth v mask false).
Notation col v := (nth v colors top).
Notation cmax := (color_max adj ws mask).
Notation cmin := (color_min adj ws mask).
Lemma cmax_spec v : cmax v = true <-> forall u, In u (nb v) -> mk u = false -> wt u <= wt v.
Proof.
  unfold color_max. rewrite forallb_forall. split; intros H u Hu; specialize (H u Hu).
  - intro E. rewrite E in H. lia.
  - destruct (mk u) eqn:E; [reflexivity|]. specialize (H eq_refl). lia.
Qed.
Lemma cmin_spec v : cmin v = true <-> forall u, In u (nb v) -> mk u = false -> wt v <= wt u.
Proof.
  unfold color_min. rewrite forallb_forall. split; intros H u Hu; specialize (H u Hu).
  - intro E. rewrite E in H. lia.
  - destruct (mk u) eqn:E; [reflexivity|]. specialize (H eq_refl). lia.
Qed.
Lemma done0_false : done0 adj ws mask = false -> forall v, (v < n)%nat -> mk v = true.
Proof.
  intros D v Hv. destruct (mk v) eqn:E; [reflexivity|]. exfalso.
  destruct (argmin_where (fun x => - wt x) (fun x => negb (mk x)) (seq 0 n) v) as (x & Hx & Px & Hm); [apply in_seq; lia|rewrite E; reflexivity|].
  assert (Q : done0 adj ws mask = true); [|congruence]. unfold done0, nverts. apply existsb_exists. exists x. split; [exact Hx|].
  rewrite Px. cbn [andb]. apply cmax_spec. intros u Hu Eu. specialize (Hm u ltac:(apply in_seq; apply nb_lt in Hu; lia) ltac:(rewrite Eu; reflexivity)). cbn beta in Hm. lia.
Qed.
Lemma done1_false : done1 adj ws mask = false -> forall v, (v < n)%nat -> mk v = false -> cmax v = true.
Proof.
  intros D v Hv Ev. destruct (cmax v) eqn:E; [reflexivity|]. exfalso.
  destruct (argmin_where wt (fun x => negb (mk x) && negb (cmax x)) (seq 0 n) v) as (x & Hx & Px & Hm); [apply in_seq; lia|rewrite Ev, E; reflexivity|].
  apply andb_prop in Px. destruct Px as [P1 P2]. apply negb_true_iff in P1, P2.
  assert (Q : done1 adj ws mask = true); [|congruence]. unfold done1, nverts. apply existsb_exists. exists x. split; [exact Hx|].
  rewrite P1, P2. cbn [negb andb]. apply cmin_spec. intros u Hu Eu. destruct (Z.le_gt_cases (wt x) (wt u)) as [|Hlt]; [assumption|]. exfalso.
  assert (Hcu : cmax u = false).
  { destruct (cmax u) eqn:Ec; [|reflexivity]. apply (proj1 (cmax_spec u) Ec x) in P1; [lia|apply nb_sym; exact Hu]. }
  specialize (Hm u ltac:(apply in_seq; apply nb_lt in Hu; lia)). rewrite Eu, Hcu in Hm. specialize (Hm eq_refl). lia.
Qed.

Definition distinct : Prop := weights_differ adj ws.
Record FI : Prop := {
  fi_col : forall v, (v < n)%nat -> mk v = true -> 1 <= col v <= color;
  fi_top : forall v, (v < n)%nat -> mk v = false -> col v = top;
  fi_prop : distinct -> forall v u, In u (nb v) -> u <> v -> mk v = true -> mk u = true -> col v <> col u;
  fi_hit : color = 0 \/ exists v, (v < n)%nat /\ mk v = true /\ col v = color;
  fi_num : 0 <= color <= 2 * Z.of_nat (num (fun v => mk v) (seq 0 n)) }.
Hypothesis Htop : 2 * Z.of_nat n + 2 < top.
Hypothesis I : FI.
Lemma color_le : 0 <= color <= 2 * Z.of_nat n.
Proof. pose proof (fi_num I) as H. pose proof (num_le (fun v => mk v) (seq 0 n)) as L. rewrite seq_length in L. lia. Qed.
Notation colors' := (fast_colors adj ws top mask colors color).
Notation col' v := (nth v colors' top).
Lemma col'_eq v : (v < n)%nat -> col' v = if mk v then col v else if cmax v then color + 1 else if cmin v then color + 2 else top.
Proof. intro Hv. unfold fast_colors. rewrite nth_tab by exact Hv. destruct (mk v) eqn:E; [reflexivity|]. rewrite (fi_top I v Hv E). reflexivity. Qed.
Lemma fast_proper : distinct -> forall v u, In u (nb v) -> u <> v -> col' v <= color + 2 -> col' u <= color + 2 -> col' v <> col' u.
Proof.
  intros D v u Hu Hne H1 H2. destruct (nb_lt _ _ Hu) as [Lu Lv]. pose proof color_le as CL.
  rewrite !col'_eq in * by assumption. pose proof (D v u (proj1 (nb_adj v u) Hu) Hne) as Hw. fold (wt v) (wt u) in Hw.
  pose proof (fi_col I v Lv) as Cv. pose proof (fi_col I u Lu) as Cu.
  destruct (mk v) eqn:Ev, (mk u) eqn:Eu.
  - apply (fi_prop I D); auto.
  - specialize (Cv eq_refl). destruct (cmax u); [lia|]. destruct (cmin u); lia.
  - specialize (Cu eq_refl). destruct (cmax v); [lia|]. destruct (cmin v); lia.
  - clear Cv Cu. destruct (cmax v) eqn:M1, (cmax u) eqn:M2.
    + apply (proj1 (cmax_spec v) M1 u Hu) in Eu. apply (proj1 (cmax_spec u) M2 v (nb_sym _ _ Hu)) in Ev. lia.
    + destruct (cmin u); lia.
    + destruct (cmin v); lia.
    + destruct (cmin v) eqn:N1, (cmin u) eqn:N2; try lia.
      apply (proj1 (cmin_spec v) N1 u Hu) in Eu. apply (proj1 (cmin_spec u) N2 v (nb_sym _ _ Hu)) in Ev. lia.
Qed.
Notation mask' := (fast_mask ws top mask colors' color).
Lemma mask'_eq v : (v < n)%nat -> nth v mask' false = mk v || cmax v || cmin v.
Proof.
  intro Hv. unfold fast_mask. rewrite nth_tab by exact Hv. rewrite col'_eq by exact Hv. pose proof color_le. destruct (mk v); [reflexivity|].
  destruct (cmax v); [cbn [orb]; lia|]. destruct (cmin v); cbn [orb]; lia.
Qed.
End Fast.

Lemma fast_step mask colors color : 2 * Z.of_nat n + 2 < top -> FI mask colors color -> done0 adj ws mask = true -> done1 adj ws mask = true ->
  FI (fast_mask ws top mask (fast_colors adj ws top mask colors color) color) (fast_colors adj ws top mask colors color) (color + 2) /\
  (num (fun v => nth v mask false) (seq 0 n) < num (fun v => nth v (fast_mask ws top mask (fast_colors adj ws top mask colors color) color) false) (seq 0 n))%nat.
Proof.
  intros Ht I D0 D1. pose proof (color_le mask colors color I) as CL.
  assert (Lt : (num (fun v => nth v mask false) (seq 0 n) < num (fun v => nth v (fast_mask ws top mask (fast_colors adj ws top mask colors color) color) false) (seq 0 n))%nat).
  { unfold done0, nverts in D0. apply existsb_exists in D0. destruct D0 as (x & Hx & E). apply andb_prop in E. destruct E as [E1 E2]. apply negb_true_iff in E1.
    apply (num_lt _ _ _ x).
    - intros y Hy E. rewrite mask'_eq by (assumption || (apply in_seq in Hy; lia)). rewrite E. reflexivity.
    - exact Hx.
    - exact E1.
    - rewrite mask'_eq by (assumption || (apply in_seq in Hx; lia)). rewrite E1, E2. reflexivity. }
  split; [|exact Lt]. constructor.
  - intros v Hv. rewrite mask'_eq, col'_eq by assumption. pose proof (fi_col _ _ _ I v Hv) as Cv. intro E. destruct (nth v mask false); [specialize (Cv eq_refl); lia|].
    destruct (color_max adj ws mask v); [lia|]. destruct (color_min adj ws mask v); [lia|discriminate].
  - intros v Hv. rewrite mask'_eq, col'_eq by assumption. intro E. destruct (nth v mask false); [discriminate|].
    destruct (color_max adj ws mask v); [discriminate|]. destruct (color_min adj ws mask v); [discriminate|reflexivity].
  - intros D v u Hu Hne Ev Eu. destruct (nb_lt _ _ Hu) as [Lu Lv].
    assert (Le : forall x, (x < n)%nat -> nth x (fast_mask ws top mask (fast_colors adj ws top mask colors color) color) false = true -> nth x (fast_colors adj ws top mask colors color) top <= color + 2).
    { intros x Hx Ex. rewrite mask'_eq in Ex by assumption. rewrite col'_eq by assumption. pose proof (fi_col _ _ _ I x Hx) as Cx. destruct (nth x mask false); [specialize (Cx eq_refl); lia|].
      destruct (color_max adj ws mask x); [lia|]. destruct (color_min adj ws mask x); [lia|discriminate]. }
    apply (fast_proper mask colors color Ht I D); auto.
  - right. unfold done1, nverts in D1. apply existsb_exists in D1. destruct D1 as (x & Hx & E). apply andb_prop in E. destruct E as [E E3]. apply andb_prop in E. destruct E as [E1 E2].
    apply negb_true_iff in E1, E2. apply in_seq in Hx. assert (Hx' : (x < n)%nat) by lia. exists x. split; [exact Hx'|]. rewrite mask'_eq, col'_eq by assumption.
    rewrite E1, E2, E3. split; reflexivity.
  - pose proof (fi_num _ _ _ I). lia.
Qed.

Lemma fast_loop_ok : 2 * Z.of_nat n + 2 < top -> forall fuel mask colors color, FI mask colors color -> (n < fuel + num (fun v => nth v mask false) (seq 0 n))%nat ->
  exists cs k, fast_loop adj ws top fuel mask colors color = Some (cs, k) /\ complete n cs k /\ (weights_differ adj ws -> proper adj cs) /\ (k = 0 \/ In k cs).
Proof.
  intro Ht. induction fuel as [|f IH]; intros mask colors color I Hf.
  - pose proof (num_le (fun v => nth v mask false) (seq 0 n)) as L. rewrite seq_length in L. lia.
  - cbn [fast_loop].
    assert (Fin : forall k, (forall v, (v < n)%nat -> 1 <= nth v (fast_colors adj ws top mask colors color) top <= k) -> k <= color + 2 -> (k = 0 \/ exists v, (v < n)%nat /\ nth v (fast_colors adj ws top mask colors color) top = k) ->
      complete n (fast_colors adj ws top mask colors color) k /\ (weights_differ adj ws -> proper adj (fast_colors adj ws top mask colors color)) /\ (k = 0 \/ In k (fast_colors adj ws top mask colors color))).
    { intros k Hk Hle Hhit. split; [|split].
      - split; [apply len_tab|]. intros v c Hc. assert (Hv : (v < n)%nat) by (rewrite <- (len_tab (fun v => if nth v mask false then nth v colors top
                else if color_max adj ws mask v then color + 1 else if color_min adj ws mask v then color + 2 else nth v colors top)); apply nth_error_Some; unfold fast_colors in Hc; congruence).
        specialize (Hk v Hv). rewrite (nth_error_nth _ _ top Hc) in Hk. exact Hk.
      - intros D v u c d A Hne Hc Hd. apply nb_adj in A. destruct (nb_lt _ _ A) as [Lu Lv].
        pose proof (fast_proper mask colors color Ht I D v u A Hne) as P. rewrite (nth_error_nth _ _ top Hc), (nth_error_nth _ _ top Hd) in P.
        pose proof (Hk v Lv) as K1. pose proof (Hk u Lu) as K2. rewrite (nth_error_nth _ _ top Hc) in K1. rewrite (nth_error_nth _ _ top Hd) in K2. apply P; lia.
      - destruct Hhit as [->|(x & Hx & <-)]; [left; reflexivity|right]. apply nth_In. unfold fast_colors; rewrite len_tab; exact Hx. }
    destruct (done0 adj ws mask) eqn:D0; cbn [negb].
    + destruct (done1 adj ws mask) eqn:D1; cbn [negb].
      * destruct (fast_step mask colors color Ht I D0 D1) as [I' Lt]. apply IH; [exact I'|lia].
      * eexists _, _. split; [reflexivity|]. apply Fin; [|lia|].
        2: { right. unfold done0, nverts in D0. apply existsb_exists in D0. destruct D0 as (x & Hx & E). apply andb_prop in E. destruct E as [E1 E2]. apply negb_true_iff in E1.
          apply in_seq in Hx. exists x. split; [lia|]. rewrite col'_eq by (assumption || lia). rewrite E1, E2. reflexivity. }
        intros v Hv. rewrite col'_eq by assumption. pose proof (fi_col _ _ _ I v Hv) as Cv. pose proof (color_le _ _ _ I).
        destruct (nth v mask false) eqn:E; [specialize (Cv eq_refl); lia|]. rewrite (done1_false mask D1 v Hv E). lia.
    + eexists _, _. split; [reflexivity|]. apply Fin; [|lia|].
      2: { destruct (fi_hit _ _ _ I) as [?|(x & Hx & Mx & Ex)]; [left; assumption|right]. exists x. split; [exact Hx|]. rewrite col'_eq by assumption. rewrite Mx. exact Ex. }
      intros v Hv. rewrite col'_eq by assumption. pose proof (done0_false mask D0 v Hv) as E. rewrite E.
      exact (fi_col _ _ _ I v Hv E).
Qed.
Lemma fast_ok fuel : 2 * Z.of_nat n + 2 < top -> (n < fuel)%nat ->
  exists cs k, fast_independent_sets adj ws top fuel = Some (cs, k) /\ complete n cs k /\ (weights_differ adj ws -> proper adj cs) /\ (k = 0 \/ In k cs).
Proof.
  intros Ht Hf. unfold fast_independent_sets. apply fast_loop_ok; [exact Ht| |lia]. constructor.
  - intros v Hv. rewrite nth_tab by exact Hv. discriminate.
  - intros v Hv _. rewrite nth_tab by exact Hv. reflexivity.
  - intros _ v u Hu _ E. destruct (nb_lt _ _ Hu) as [_ Lv]. rewrite nth_tab in E by exact Lv. discriminate.
  - left. reflexivity.
  - lia.
Qed.
End P.
