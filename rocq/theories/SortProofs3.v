From Coq Require Import Sorted.
From Verif Require Import Prelude SortModel SortSpec SortProofs SortProofs2.

(** number of merge passes over n elements: blocks of 16 doubled until they cover n *)
Lemma log2_up_half c : 2 <= c -> Nat.log2_up c = S (Nat.log2_up ((c + 1) / 2)).
Proof.
  intro H. pose proof (Nat.div_mod c 2 ltac:(lia)) as D. pose proof (Nat.mod_upper_bound c 2 ltac:(lia)) as M.
  set (m := c / 2) in *. destruct (Nat.eq_dec (c mod 2) 0) as [E|E].
  - assert (c = 2 * m) by lia. replace ((c + 1) / 2) with m; [rewrite H0; apply Nat.log2_up_double; lia|].
    apply (Nat.div_unique (c + 1) 2 m 1); lia.
  - assert (c = 2 * m + 1) by lia. replace ((c + 1) / 2) with (S m); [|apply (Nat.div_unique (c + 1) 2 (S m) 0); lia].
    rewrite H0, Nat.log2_up_succ_double by lia. rewrite (Nat.log2_up_eqn (S m)) by lia. reflexivity.
Qed.
Lemma flips_spec n : forall fuel h fl, 0 < h -> n <= h + fuel -> flips fuel h fl n = xorb fl (Nat.odd (Nat.log2_up ((n + h - 1) / h))).
Proof.
  induction fuel as [|fuel IH]; intros h fl Hh Hf; cbn [flips]; destruct (Nat.ltb_spec h n) as [H|H]; try lia.
  1, 3: assert ((n + h - 1) / h <= 1) as K by (apply Nat.lt_succ_r; apply Nat.div_lt_upper_bound; lia);
    rewrite (Nat.log2_up_eqn0 _ K); destruct fl; reflexivity.
  rewrite IH by lia. rewrite (log2_up_half ((n + h - 1) / h)).
  - rewrite Nat.odd_succ, <- Nat.negb_odd.
    replace (((n + h - 1) / h + 1) / 2) with ((n + 2 * h - 1) / (2 * h)); [destruct fl, (Nat.odd _); reflexivity|].
    replace ((n + h - 1) / h + 1) with ((n + 2 * h - 1) / h); [rewrite Nat.div_div by lia; f_equal; lia|].
    replace (n + 2 * h - 1) with ((n + h - 1) + 1 * h) by lia. rewrite Nat.div_add by lia. reflexivity.
  - apply Nat.div_le_lower_bound; lia.
Qed.
Definition merge_passes (n : nat) : nat := Nat.log2_up ((n + 15) / 16).
Lemma chunk_flip_passes n : chunk_flip n = Nat.odd (merge_passes n).
Proof. unfold chunk_flip. rewrite flips_spec by lia. unfold merge_passes. replace (n + 16 - 1) with (n + 15) by lia. destruct (Nat.odd _); reflexivity. Qed.

Section O.
Context {A : Type}.
Variable comp : A -> A -> bool.
Hypothesis SWO : strict_weak_order comp.
Notation SS := (stable_sort_of comp).
Notation mn := Nat.min.
Variable nths : nat.
Hypothesis N0 : 0 < nths.
Variable inp : list A.
Let dist := length inp.
Let nw := nwork nths dist.
Let B t := mn (nw * t) dist.

Lemma nw_covers : dist <= nw * nths.
Proof.
  unfold nw, nwork. pose proof (Nat.div_mod (dist + nths - 1) nths ltac:(lia)). pose proof (Nat.mod_upper_bound (dist + nths - 1) nths ltac:(lia)). lia.
Qed.
Lemma B_mono t u : t <= u -> B t <= B u.
Proof. intro H. unfold B. assert (nw * t <= nw * u) by (apply Nat.mul_le_mono_l; exact H). lia. Qed.
Lemma B_le t : B t <= dist. Proof. unfold B. lia. Qed.
Definition sel (s : omp_state) (fl : bool) : list A := if fl then oo s else oa s.

Lemma thread_local_ok s t : length (oa s) = dist -> length (oo s) = dist ->
  exists s', thread_local comp nths dist (Some s) t = Some s' /\ frame (B t) (B (S t)) (oa s) (oa s') /\ frame (B t) (B (S t)) (oo s) (oo s') /\
   oflip s' = setf (oflip s) t (chunk_flip (B (S t) - B t)) /\
   SS (slice (oa s) (B t) (B (S t))) (slice (sel s' (chunk_flip (B (S t) - B t))) (B t) (B (S t))).
Proof.
  intros La Lo. unfold thread_local. cbn [bind]. fold nw. set (l := nw * t).
  assert (ES : mn (l + nw) dist = B (S t)) by (unfold B, l; replace (nw * S t) with (nw * t + nw) by lia; reflexivity). rewrite ES.
  destruct (Nat.le_gt_cases l dist) as [Hl|Hl].
  - assert (EB : B t = l) by (unfold B; fold l; lia). rewrite EB.
    destruct (local_sort_ok comp SWO l (B (S t)) (oa s) (oo s)) as (a' & o' & E & F & G & S); [rewrite <- EB; apply B_mono; lia|rewrite La; apply B_le|rewrite Lo; apply B_le|].
    rewrite E. cbn [bind]. eexists. split; [reflexivity|]. cbn [oa oo oflip sel]. auto.
  - assert (EB : B t = dist) by (unfold B; fold l; lia). assert (EB' : B (S t) = dist) by (unfold B; replace (nw * S t) with (nw * t + nw) by lia; fold l; lia).
    rewrite EB'. unfold local_sort. replace (dist - l) with 0 by lia. cbn [ins_phase]. destruct (Nat.ltb_spec l dist); [lia|]. cbn [bind passes].
    replace (dist - l) with 0 by lia. cbn [Nat.ltb Nat.leb]. eexists. split; [reflexivity|]. cbn [oa oo oflip]. rewrite EB, Nat.sub_diag.
    split; [apply frame_refl|]. split; [apply frame_refl|]. split; [reflexivity|]. rewrite !slice_nil by lia. apply SS_nil.
Qed.
Lemma B_disj t u : t <> u -> B (S t) <= B u \/ B (S u) <= B t.
Proof. intro H. destruct (Nat.lt_ge_cases t u); [left; apply B_mono; lia|right; apply B_mono; lia]. Qed.
Lemma local_phase_ok (o : list A) : length o = dist -> forall D todo s, NoDup todo -> (forall t, In t todo -> ~ In t D) ->
  length (oa s) = dist -> length (oo s) = dist ->
  (forall t, In t D -> oflip s t = chunk_flip (B (S t) - B t) /\ SS (slice inp (B t) (B (S t))) (slice (sel s (oflip s t)) (B t) (B (S t)))) ->
  (forall t, ~ In t D -> slice (oa s) (B t) (B (S t)) = slice inp (B t) (B (S t))) ->
  exists s', fold_left (thread_local comp nths dist) todo (Some s) = Some s' /\ length (oa s') = dist /\ length (oo s') = dist /\
  forall t, In t D \/ In t todo -> oflip s' t = chunk_flip (B (S t) - B t) /\ SS (slice inp (B t) (B (S t))) (slice (sel s' (oflip s' t)) (B t) (B (S t))).
Proof.
  intro Lo. intros D todo. revert D. induction todo as [|t todo IH]; intros D s ND Dj L1 L2 HD HN.
  - exists s. split; [reflexivity|]. split; [exact L1|]. split; [exact L2|]. intros t [Ht|[]]. apply HD; exact Ht.
  - cbn [fold_left]. destruct (thread_local_ok s t L1 L2) as (s1 & E1 & F1 & G1 & O1 & S1). rewrite E1. inversion ND as [|? ? N1 N2]; subst.
    destruct (IH (t :: D) s1) as (s' & E' & L1' & L2' & H'); try assumption.
    + intros u Hu [->|Q]; [contradiction|]. apply (Dj u); [right; exact Hu|exact Q].
    + rewrite (proj1 F1). exact L1.
    + rewrite (proj1 G1). exact L2.
    + intros u [<-|Hu].
      * rewrite O1. unfold setf. rewrite Nat.eqb_refl. split; [reflexivity|]. rewrite <- (HN t); [exact S1|]. apply Dj; left; reflexivity.
      * assert (u <> t) by (intro; subst; apply (Dj t); [left; reflexivity|exact Hu]). destruct (HD u Hu) as [H1 H2].
        rewrite O1. unfold setf. destruct (Nat.eqb_spec u t); [contradiction|]. split; [exact H1|].
        unfold sel in *. pose proof (B_disj u t H) as Dd. destruct (oflip s u).
        -- rewrite (frame_slice _ _ _ _ (B u) (B (S u)) G1) by lia. exact H2.
        -- rewrite (frame_slice _ _ _ _ (B u) (B (S u)) F1) by lia. exact H2.
    + intros u Hu. assert (u <> t) by (intro; subst; apply Hu; left; reflexivity). pose proof (B_disj u t H) as Dd.
      rewrite (frame_slice _ _ _ _ (B u) (B (S u)) F1) by lia. apply HN. intro Q. apply Hu. right; exact Q.
    + exists s'. split; [exact E'|]. split; [exact L1'|]. split; [exact L2'|]. intros u Hu. apply H'. cbn [In] in Hu |- *. tauto.
Qed.

(** level invariant *)
Definition LI (h : nat) (fl : bool) (s : omp_state) : Prop :=
  length (oa s) = dist /\ length (oo s) = dist /\
  forall t, t < nths -> t mod h = 0 -> nw * t < dist -> oflip s t = fl /\ SS (slice inp (B t) (B (t + h))) (slice (sel s fl) (B t) (B (t + h))).

Lemma thread_level_ok h fl s0 s t : 0 < h -> LI h fl s0 -> length (oa s) = dist -> length (oo s) = dist -> sel s fl = sel s0 fl ->
  t < nths -> oflip s t = oflip s0 t ->
  exists s', thread_level comp nths dist h (Some s) t = Some s' /\ length (oa s') = dist /\ length (oo s') = dist /\ sel s' fl = sel s0 fl /\
    (forall u, u <> t -> oflip s' u = oflip s u) /\
    (t mod (2 * h) = 0 -> frame (B t) (B (t + 2 * h)) (sel s (negb fl)) (sel s' (negb fl))) /\ (t mod (2 * h) <> 0 -> s' = s) /\
    (t mod (2 * h) = 0 -> nw * t < dist -> oflip s' t = negb fl /\ SS (slice inp (B t) (B (t + 2 * h))) (slice (sel s' (negb fl)) (B t) (B (t + 2 * h)))).
Proof.
  intros Hh (I1 & I2 & I3) L1 L2 Es Ht Ef. unfold thread_level. cbn [bind]. fold nw.
  destruct (Nat.eqb_spec (t mod (2 * h)) 0) as [Em|Em].
  2: { exists s. repeat (split; auto); contradiction. }
  set (l := nw * t). fold (B (t + h)) (B (t + 2 * h)).
  destruct (Nat.lt_ge_cases l dist) as [Hl|Hl].
  - assert (EB : B t = l) by (unfold B; fold l; lia).
    assert (Mh : t mod h = 0).
    { apply Nat.mod_divide in Em; [|lia]. apply Nat.mod_divide; [lia|]. destruct Em as [k Ek]. exists (2 * k). lia. }
    destruct (I3 t Ht Mh Hl) as [If IS]. rewrite Ef, If.
    assert (HB1 : B t <= B (t + h)) by (apply B_mono; lia). assert (HB2 : B (t + h) <= B (t + 2 * h)) by (apply B_mono; lia). pose proof (B_le (t + 2 * h)) as HB3.
    assert (S2 : SS (slice inp (B (t + h)) (B (t + 2 * h))) (slice (sel s0 fl) (B (t + h)) (B (t + 2 * h)))).
    { destruct (Nat.lt_ge_cases (nw * (t + h)) dist) as [Q|Q].
      - assert (t + h < nths) by (pose proof nw_covers; apply Nat.lt_nge; intro; assert (nw * nths <= nw * (t + h)) by (apply Nat.mul_le_mono_l; lia); lia).
        assert (Mh2 : (t + h) mod h = 0) by (rewrite <- (Nat.mul_1_l h) at 1; rewrite Nat.mod_add by lia; exact Mh).
        destruct (I3 (t + h) H Mh2 Q) as [_ K]. replace (t + 2 * h) with (t + h + h) by lia. exact K.
      - assert (B (t + h) = dist) by (unfold B; lia). rewrite !slice_nil by lia. apply SS_nil. }
    assert (Len : forall b, length (sel s b) = dist) by (intros []; assumption).
    destruct (merge_loop_ok comp (sel s fl) (B (t + h)) (B (t + 2 * h)) ltac:(rewrite Len; lia) ltac:(rewrite Len; lia) (B (t + 2 * h) - l) l (B (t + h)) l (sel s (negb fl)))
      as (d' & E & F & S); [lia|lia|lia|rewrite Len; lia|].
    replace (l + (B (t + h) - l + (B (t + 2 * h) - B (t + h)))) with (B (t + 2 * h)) in * by lia.
    assert (SSn : SS (slice inp (B t) (B (t + 2 * h))) (slice d' (B t) (B (t + 2 * h)))).
    { rewrite EB, S, Es. rewrite (slice_app inp l (B (t + h))) by lia. apply SS_merge; [exact SWO|rewrite <- EB; exact IS|exact S2]. }
    rewrite <- EB in F. pose proof (proj1 F) as LF. rewrite Len in LF. unfold sel in *. destruct fl; cbn [negb] in *; rewrite E; cbn [bind];
      (eexists; split; [reflexivity|]; cbn [oa oo oflip]; unfold setf; rewrite ?Nat.eqb_refl;
       split; [assumption|]; split; [assumption|]; split; [assumption|];
       split; [intros u Hu; destruct (Nat.eqb_spec u t); [contradiction|reflexivity]|]; split; [intro; exact F|]; split; [contradiction|]; intros _ _; split; [reflexivity|exact SSn]).
  - assert (EB : B t = dist) by (unfold B; fold l; lia).
    assert (EB1 : forall k, B (t + k) = dist) by (intro k; pose proof (B_mono t (t + k) ltac:(lia)); pose proof (B_le (t + k)); lia). rewrite !EB1.
    replace (dist - l) with 0 by lia. 
    assert (ML : forall src dst : list A, merge_loop comp 0 src dst l dist dist dist l = Some dst).
    { intros src dst. cbn [merge_loop]. destruct (Nat.ltb_spec l dist); [lia|]. cbn [andb]. replace (dist - l) with 0 by lia. rewrite Nat.sub_diag. reflexivity. }
    rewrite !ML. cbn [bind].
    destruct (oflip s t); (eexists; split; [reflexivity|]; cbn [oa oo oflip sel]; unfold sel in *; cbn [oa oo oflip] in *;
       split; [assumption|]; split; [assumption|]; split; [destruct fl; assumption|];
       split; [intros u Hu; unfold setf; destruct (Nat.eqb_spec u t); [contradiction|reflexivity]|]; split; [intro; destruct fl; apply frame_refl|]; split; [contradiction|]; intros; lia).
Qed.

Lemma mod_step h t u : 0 < h -> t mod h = 0 -> u mod h = 0 -> t < u -> t + h <= u.
Proof.
  intros Hh Ht Hu L. apply Nat.mod_divide in Ht; [|lia]. apply Nat.mod_divide in Hu; [|lia]. destruct Ht as [a ->], Hu as [b ->].
  assert (a < b) by (apply (Nat.mul_lt_mono_pos_r h); lia). assert (S a * h <= b * h) by (apply Nat.mul_le_mono_r; lia). lia.
Qed.
Lemma level_fold h fl s0 : 0 < h -> LI h fl s0 -> forall D todo s, NoDup todo -> (forall t, In t todo -> ~ In t D /\ t < nths) ->
  length (oa s) = dist -> length (oo s) = dist -> sel s fl = sel s0 fl -> (forall t, ~ In t D -> oflip s t = oflip s0 t) ->
  (forall t, In t D -> t mod (2 * h) = 0 -> nw * t < dist -> oflip s t = negb fl /\ SS (slice inp (B t) (B (t + 2 * h))) (slice (sel s (negb fl)) (B t) (B (t + 2 * h)))) ->
  exists s', fold_left (thread_level comp nths dist h) todo (Some s) = Some s' /\ length (oa s') = dist /\ length (oo s') = dist /\
  (forall t, In t D \/ In t todo -> t mod (2 * h) = 0 -> nw * t < dist -> oflip s' t = negb fl /\ SS (slice inp (B t) (B (t + 2 * h))) (slice (sel s' (negb fl)) (B t) (B (t + 2 * h)))).
Proof.
  intros Hh I. intros D todo. revert D. induction todo as [|t todo IH]; intros D s ND Dj L1 L2 Es Ef HD.
  - exists s. split; [reflexivity|]. split; [exact L1|]. split; [exact L2|]. intros t [Ht|[]]. apply HD; exact Ht.
  - cbn [fold_left]. destruct (Dj t (or_introl eq_refl)) as [Dt Tn].
    destruct (thread_level_ok h fl s0 s t Hh I L1 L2 Es Tn (Ef t Dt)) as (s1 & E1 & L1' & L2' & Es' & Ef' & F' & Fx & S'). rewrite E1.
    inversion ND as [|? ? N1 N2]; subst.
    destruct (IH (t :: D) s1) as (s' & Q1 & Q2 & Q3 & Q4); try assumption.
    + intros u Hu. destruct (Dj u (or_intror Hu)) as [K1 K2]. split; [|exact K2]. intros [->|Q]; contradiction.
    + intros u Hu. rewrite Ef' by (intro; subst; apply Hu; left; reflexivity). apply Ef. intro Q; apply Hu; right; exact Q.
    + intros u [<-|Hu] Mu Nu; [apply S'; assumption|]. assert (u <> t) by (intro; subst; contradiction).
      destruct (HD u Hu Mu Nu) as [H1 H2]. rewrite Ef' by assumption. split; [exact H1|].
      destruct (Nat.eq_dec (t mod (2 * h)) 0) as [Mt|Mt]; [|rewrite (Fx Mt); exact H2].
      assert (Dd : B (u + 2 * h) <= B t \/ B (t + 2 * h) <= B u).
      { destruct (Nat.lt_ge_cases u t); [left; apply B_mono; apply mod_step; lia|right; apply B_mono; apply mod_step; lia]. }
      rewrite (frame_slice _ _ _ _ (B u) (B (u + 2 * h)) (F' Mt)) by lia. exact H2.
    + exists s'. split; [exact Q1|]. split; [exact Q2|]. split; [exact Q3|]. intros u Hu. apply Q4. cbn [In] in Hu |- *. tauto.
Qed.

Lemma levels_ok ord : (forall k, Permutation (ord k) (seq 0 nths)) -> forall fuel h lv fl s, 0 < h -> nths <= h + fuel -> LI h fl s ->
  exists s' fl' h', levels comp nths fuel dist h lv ord (Some s) = Some s' /\ nths <= h' /\ LI h' fl' s'.
Proof.
  intro PO. induction fuel as [|fuel IH]; intros h lv fl s Hh Hf I; cbn [levels]; destruct (Nat.ltb_spec h nths) as [H|H]; try lia.
  1, 3: exists s, fl, h; auto.
  pose proof I as (I1 & I2 & I3).
  destruct (level_fold h fl s Hh I [] (ord lv) s) as (s1 & E1 & L1 & L2 & H1).
  - eapply Permutation_NoDup; [symmetry; apply PO|apply seq_NoDup].
  - intros t Ht. split; [auto|]. apply (Permutation_in _ (PO lv)) in Ht. apply in_seq in Ht. lia.
  - exact I1. - exact I2. - reflexivity. - reflexivity. - intros t [].
  - rewrite E1. apply (IH (2 * h) (S lv) (negb fl) s1); [lia|lia|]. split; [exact L1|]. split; [exact L2|].
    intros t Ht Mt Nt. apply H1; try assumption. right. eapply Permutation_in; [symmetry; apply PO|]. apply in_seq. lia.
Qed.

Lemma copy_fold (o : list A) : length o = dist -> forall D todo (a : list A), length a = dist ->
  (forall t, In t D -> forall i, B t <= i < B (S t) -> nth_error a i = nth_error o i) ->
  exists a', fold_left (thread_copy nths dist true o) todo (Some a) = Some a' /\ length a' = dist /\
  forall t, In t D \/ In t todo -> forall i, B t <= i < B (S t) -> nth_error a' i = nth_error o i.
Proof.
  intro Lo. intros D todo. revert D. induction todo as [|t todo IH]; intros D a La H.
  - exists a. split; [reflexivity|]. split; [exact La|]. intros t [Ht|[]]; apply H; exact Ht.
  - cbn [fold_left]. unfold thread_copy at 2. cbn [bind]. fold nw. set (l := nw * t).
    assert (ES : mn (l + nw) dist = B (S t)) by (unfold B, l; replace (nw * S t) with (nw * t + nw) by lia; reflexivity). rewrite ES.
    assert (K : exists a1, copy_seg o a l l (B (S t) - l) = Some a1 /\ length a1 = dist /\ (forall i, B t <= i < B (S t) -> nth_error a1 i = nth_error o i) /\ (forall i, i < B t \/ B (S t) <= i -> nth_error a1 i = nth_error a i)).
    { destruct (Nat.le_gt_cases l dist) as [Hl|Hl].
      - assert (EB : B t = l) by (unfold B; fold l; lia). assert (HB : B t <= B (S t)) by (apply B_mono; lia). pose proof (B_le (S t)).
        destruct (copy_seg_ok o (B (S t) - l) l l a) as (a1 & E & F & S); [lia|lia|]. replace (l + (B (Datatypes.S t) - l)) with (B (Datatypes.S t)) in * by lia.
        exists a1. split; [exact E|]. split; [rewrite (proj1 F); exact La|]. split.
        + intros i Hi. pose proof (nth_slice a1 l (B (Datatypes.S t)) (i - l)) as Q1. pose proof (nth_slice o l (B (Datatypes.S t)) (i - l)) as Q2. rewrite S in Q1. rewrite Q1 in Q2.
          destruct (Nat.ltb_spec (i - l) (B (Datatypes.S t) - l)); [|lia]. replace (l + (i - l)) with i in Q2 by lia. exact Q2.
        + intros i Hi. apply (proj2 F). lia.
      - pose proof (B_le (S t)). replace (B (S t) - l) with 0 by lia. exists a. split; [reflexivity|]. split; [exact La|]. split; [|auto].
        intros i Hi. assert (B t = dist) by (unfold B; fold l; lia). lia. }
    destruct K as (a1 & E1 & L1 & V1 & U1). rewrite E1.
    destruct (IH (t :: D) a1 L1) as (a' & E' & L' & H').
    + intros u [<-|Hu] i Hi; [apply V1; exact Hi|]. destruct (Nat.eq_dec u t) as [->|Ne]; [apply V1; exact Hi|].
      pose proof (B_disj u t Ne). rewrite U1 by lia. apply (H u Hu); exact Hi.
    + exists a'. split; [exact E'|]. split; [exact L'|]. intros u Hu. apply H'. cbn [In] in Hu |- *. tauto.
Qed.
Lemma copy_fold_false (o : list A) todo (a : list A) : fold_left (thread_copy nths dist false o) todo (Some a) = Some a.
Proof. induction todo; cbn; [reflexivity|exact IHtodo]. Qed.

(** all nonempty chunks end up in the same buffer *)
Definition same_parity : Prop := forall t, nwork nths dist * t < dist ->
  Nat.odd (merge_passes (mn (nwork nths dist) (dist - nwork nths dist * t))) = Nat.odd (merge_passes (mn (nwork nths dist) dist)).

Lemma omp_region_ok ord ordc o : (forall k, Permutation (ord k) (seq 0 nths)) -> Permutation ordc (seq 0 nths) -> length o = dist -> same_parity ->
  exists out, omp_region comp nths ord ordc inp o = Some out /\ SS inp out.
Proof.
  intros PO PC Lo SP. unfold omp_region. fold dist.
  destruct (local_phase_ok o Lo [] (ord 0) (mkst inp o (fun _ => false))) as (s1 & E1 & L1 & L2 & H1).
  - eapply Permutation_NoDup; [symmetry; apply PO|apply seq_NoDup].
  - auto. - reflexivity. - exact Lo. - intros t []. - reflexivity.
  - rewrite E1.
    assert (I : LI 1 (Nat.odd (merge_passes (mn nw dist))) s1).
    { split; [exact L1|]. split; [exact L2|]. intros t Ht _ Nt. replace (t + 1) with (S t) by lia.
      destruct (H1 t) as [F1 S1]; [right; eapply Permutation_in; [symmetry; apply PO|apply in_seq; lia]|].
      assert (EF : oflip s1 t = Nat.odd (merge_passes (mn nw dist))).
      { rewrite F1, chunk_flip_passes. pose proof (SP t Nt) as Q. fold nw in Q. rewrite <- Q. f_equal. f_equal. unfold B. replace (nw * S t) with (nw * t + nw) by lia. lia. }
      split; [exact EF|]. rewrite <- EF. exact S1. }
    destruct (levels_ok ord PO nths 1 1 _ s1 ltac:(lia) ltac:(lia) I) as (s2 & fl & h & E2 & Hh & (J1 & J2 & J3)). rewrite E2. cbn [bind].
    destruct (Nat.eq_dec dist 0) as [Z|Z].
    + assert (Ei : inp = []) by (apply length_zero_iff_nil; exact Z).
      destruct (oflip s2 0).
      * destruct (copy_fold (oo s2) J2 [] ordc (oa s2) J1) as (a' & Ea & La & _); [intros t []|]. exists a'. split; [exact Ea|].
        assert (a' = []) by (destruct a'; [reflexivity|cbn in La; lia]). subst. rewrite Ei. apply SS_nil.
      * rewrite copy_fold_false. exists (oa s2). split; [reflexivity|]. assert (oa s2 = []) as -> by (destruct (oa s2); [reflexivity|cbn in J1; lia]). rewrite Ei. apply SS_nil.
    + destruct (J3 0 N0 ltac:(apply Nat.mod_0_l; lia) ltac:(lia)) as [K1 K2].
      assert (EB : B (0 + h) = dist).
      { unfold B. pose proof nw_covers. assert (nw * nths <= nw * (0 + h)) by (apply Nat.mul_le_mono_l; lia). lia. }
      rewrite EB in K2. assert (EB0 : B 0 = 0) by (unfold B; lia). rewrite EB0 in K2. unfold dist in K2. rewrite slice_all in K2. fold dist in K2.
      rewrite K1. destruct fl; cbn [sel] in K2.
      * destruct (copy_fold (oo s2) J2 [] ordc (oa s2) J1) as (a' & Ea & La & V); [intros t []|]. exists a'. split; [exact Ea|].
        assert (a' = slice (oo s2) 0 dist) as ->; [|exact K2]. rewrite <- J2, slice_all. apply nth_error_ext. intro i.
        destruct (Nat.lt_ge_cases i dist) as [Hi|Hi].
        -- assert (NW : 0 < nw) by (pose proof nw_covers as Q; apply Nat.neq_0_lt_0; intro Q0; rewrite Q0 in Q; cbn in Q; lia).
           pose proof (Nat.div_mod i nw ltac:(lia)). pose proof (Nat.mod_upper_bound i nw ltac:(lia)).
           apply (V (i / nw)); [right; eapply Permutation_in; [symmetry; exact PC|]; apply in_seq; split; [lia|]; apply Nat.div_lt_upper_bound; pose proof nw_covers; lia|].
           unfold B. replace (nw * S (i / nw)) with (nw * (i / nw) + nw) by lia. lia.
        -- rewrite !(proj2 (nth_error_None _ _)) by lia. reflexivity.
      * rewrite copy_fold_false. exists (oa s2). split; [reflexivity|]. rewrite <- J1, slice_all in K2. exact K2.
Qed.
End O.

Lemma same_parity_one dist : forall t, nwork 1 dist * t < dist ->
  Nat.odd (merge_passes (Nat.min (nwork 1 dist) (dist - nwork 1 dist * t))) = Nat.odd (merge_passes (Nat.min (nwork 1 dist) dist)).
Proof.
  intros t H. assert (nwork 1 dist = dist) as E by (unfold nwork; rewrite Nat.div_1_r; lia). rewrite E in *. destruct t; [|lia]. do 3 f_equal. lia.
Qed.
Lemma omp_merge_sort_ok {A} (comp : A -> A -> bool) dop ord ordc inp o : strict_weak_order comp -> 0 < dop ->
  (forall k, Permutation (ord k) (seq 0 dop)) -> Permutation ordc (seq 0 dop) -> length o = length inp ->
  (dop * 256 < length inp -> forall t, nwork dop (length inp) * t < length inp ->
     Nat.odd (merge_passes (Nat.min (nwork dop (length inp)) (length inp - nwork dop (length inp) * t))) = Nat.odd (merge_passes (Nat.min (nwork dop (length inp)) (length inp)))) ->
  exists out, omp_merge_sort comp dop ord ordc inp o = Some out /\ stable_sort_of comp inp out.
Proof.
  intros S D PO PC Lo SP. unfold omp_merge_sort. destruct (Nat.ltb_spec (dop * 256) (length inp)) as [H|H].
  - apply omp_region_ok; auto. intros t Ht. apply (SP H t Ht).
  - apply omp_region_ok; [exact S|lia|intro; apply Permutation_refl|apply Permutation_refl|exact Lo|]. intros t Ht. apply same_parity_one. exact Ht.
Qed.
Lemma omp_merge_sort_even {A} (comp : A -> A -> bool) dop ord ordc inp o : strict_weak_order comp -> 0 < dop ->
  (forall k, Permutation (ord k) (seq 0 dop)) -> Permutation ordc (seq 0 dop) -> length o = length inp ->
  length inp mod dop = 0 -> exists out, omp_merge_sort comp dop ord ordc inp o = Some out /\ stable_sort_of comp inp out.
Proof.
  intros S D PO PC Lo M. apply omp_merge_sort_ok; auto. intros _ t Ht. apply Nat.mod_divide in M; [|lia]. destruct M as [k Ek].
  assert (E : nwork dop (length inp) = k).
  { unfold nwork. symmetry. apply (Nat.div_unique _ dop k (dop - 1)); lia. }
  rewrite E in *. rewrite Ek in *. do 2 f_equal.
  assert (t < dop) by (apply (Nat.mul_lt_mono_pos_l k); [destruct k; lia|lia]). assert (k * Datatypes.S t <= k * dop) by (apply Nat.mul_le_mono_l; lia).
  assert (k * 1 <= k * dop) by (apply Nat.mul_le_mono_l; lia). lia.
Qed.
