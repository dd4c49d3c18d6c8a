From Coq Require Import Sorted.
From Verif Require Import Prelude SortModel SortSpec SortProofs.

Section P.
Context {A : Type}.
Variable comp : A -> A -> bool.
Hypothesis SWO : strict_weak_order comp.
Notation SS := (stable_sort_of comp).

Lemma ins_loop_ok ll x : forall d (a : list A), ll + d < length a -> nth_error a (ll + d) = Some x -> ascending comp (slice a ll (ll + d)) ->
  exists a' l1 l2, ins_loop comp d ll a = Some a' /\ frame ll (S (ll + d)) a a' /\
    slice a ll (ll + d) = l1 ++ l2 /\ slice a' ll (S (ll + d)) = l1 ++ x :: l2 /\
    (forall y, In y l2 -> comp x y = true) /\ (forall y, In y l1 -> comp x y = false).
Proof.
  induction d as [|d IH]; intros a Hd Hx Ha; cbn [ins_loop].
  - exists a, [], []. rewrite Nat.add_0_r in *. rewrite slice_nil by lia. split; [reflexivity|]. split; [apply frame_refl|]. split; [reflexivity|].
    split; [|split; intros y []]. rewrite (slice_cons a ll (S ll) x) by (lia || assumption). rewrite slice_nil by lia. reflexivity.
  - rewrite Hx. destruct (nth_error_lt_some a (ll + d) ltac:(lia)) as [y Hy]. rewrite Hy.
    replace (ll + S d) with (S (ll + d)) in * by lia. rewrite (slice_snoc a ll (ll + d) y) in * by (lia || assumption).
    destruct (comp x y) eqn:E.
    + destruct (upd_some a (S (ll + d)) y ltac:(lia)) as [a1 E1]. rewrite E1. cbn [bind]. pose proof (upd_length _ _ _ _ E1) as L1.
      destruct (upd_some a1 (ll + d) x ltac:(lia)) as [a2 E2]. rewrite E2. cbn [bind]. pose proof (upd_length _ _ _ _ E2) as L2.
      assert (Es : slice a2 ll (ll + d) = slice a ll (ll + d)).
      { apply slice_ext. intros i Hi. rewrite (upd_nth_neq _ _ _ _ _ E2) by lia. rewrite (upd_nth_neq _ _ _ _ _ E1) by lia. reflexivity. }
      apply ss_app_iff in Ha as (Ha1 & _ & Ha3).
      destruct (IH a2) as (a' & l1 & l2 & I1 & I2 & I3 & I4 & I5 & I6); [lia|eapply upd_nth_eq; exact E2|rewrite Es; exact Ha1|].
      exists a', l1, (l2 ++ [y]). split; [exact I1|]. split; [|split; [|split; [|split]]].
      * eapply frame_trans; [|eapply frame_weak; [| |exact I2]; lia]. eapply frame_trans; [eapply frame_weak; [| |eapply upd_frame; exact E1]; lia|eapply frame_weak; [| |eapply upd_frame; exact E2]; lia].
      * rewrite <- Es, I3, app_assoc. reflexivity.
      * rewrite (slice_snoc a' ll (S (ll + d)) y); [rewrite I4, <- app_assoc; reflexivity|lia|].
        rewrite (proj2 I2) by lia. rewrite (upd_nth_neq _ _ _ _ _ E2) by lia. eapply upd_nth_eq; exact E1.
      * intros z Hz. apply in_app_iff in Hz as [Hz|[<-|[]]]; [apply I5; exact Hz|exact E].
      * exact I6.
    + exists a, (slice a ll (ll + d) ++ [y]), []. split; [reflexivity|]. split; [apply frame_refl|]. split; [rewrite app_nil_r; reflexivity|].
      split; [|split; [intros z []|]].
      * rewrite (slice_snoc a ll (S (ll + d)) x) by (lia || assumption). rewrite (slice_snoc a ll (ll + d) y) by (lia || assumption). reflexivity.
      * apply ss_app_iff in Ha as (_ & _ & Ha3). intros z Hz. apply in_app_iff in Hz as [Hz|[<-|[]]]; [|exact E].
        eapply (le_trans comp SWO z y x); [apply Ha3; [exact Hz|left; reflexivity]|exact E].
Qed.

Lemma ins_block_ok ll n (a : list A) : 0 < n -> ll + n <= length a ->
  exists a', ins_block comp ll n a = Some a' /\ frame ll (ll + n) a a' /\ SS (slice a ll (ll + n)) (slice a' ll (ll + n)).
Proof.
  intros Hn Hl. unfold ins_block.
  assert (G : forall m s (a0 : list A), s + m = n -> 0 < s -> length a0 = length a -> (forall i, ll + s <= i -> nth_error a0 i = nth_error a i) ->
     frame ll (ll + n) a a0 -> SS (slice a ll (ll + s)) (slice a0 ll (ll + s)) ->
     exists a', fold_left (fun oa d => bind oa (ins_loop comp d ll)) (seq s m) (Some a0) = Some a' /\ frame ll (ll + n) a a' /\ SS (slice a ll (ll + n)) (slice a' ll (ll + n))).
  { induction m as [|m IH]; intros s a0 Hs H0 L0 T0 F0 S0.
    - exists a0. replace s with n in * by lia. auto.
    - cbn [seq fold_left bind]. destruct (nth_error_lt_some a0 (ll + s) ltac:(lia)) as [x Hx].
      destruct (ins_loop_ok ll x s a0) as (a' & l1 & l2 & I1 & I2 & I3 & I4 & I5 & I6); [lia|exact Hx|apply S0|].
      rewrite I1. apply IH; try lia.
      + pose proof (proj1 I2). lia.
      + intros i Hi. rewrite (proj2 I2) by lia. apply T0. lia.
      + eapply frame_trans; [exact F0|eapply frame_weak; [| |exact I2]; lia].
      + replace (ll + S s) with (S (ll + s)) by lia. rewrite I4. rewrite (slice_snoc a ll (ll + s) x); [|lia|rewrite <- T0 by lia; exact Hx].
        apply SS_insert; try assumption. rewrite <- I3. exact S0. }
  destruct (nth_error_lt_some a ll ltac:(lia)) as [x Hx].
  apply (G (n - 1) 1 a); try lia; auto; [apply frame_refl|].
  replace (ll + 1) with (S ll) by lia. rewrite (slice_cons a ll (S ll) x) by (lia || assumption). rewrite slice_nil by lia. apply SS_one.
Qed.

Notation mn := Nat.min.
Lemma ins_phase_ok r : forall fuel ll (a : list A), ll <= r -> r <= length a -> r - ll <= fuel ->
  exists a', ins_phase comp fuel ll r a = Some a' /\ frame ll r a a' /\
    forall b, SS (slice a (mn (ll + b * 16) r) (mn (ll + S b * 16) r)) (slice a' (mn (ll + b * 16) r) (mn (ll + S b * 16) r)).
Proof.
  induction fuel as [|fuel IH]; intros ll a Hl Hr Hf; cbn [ins_phase]; destruct (Nat.ltb_spec ll r) as [H|H]; try lia.
  1, 3: exists a; split; [reflexivity|]; split; [apply frame_refl|]; intro b; rewrite !slice_nil by lia; apply SS_nil.
  set (rr := mn (ll + 16) r). assert (Hrr : ll < rr <= r) by (unfold rr; lia).
  destruct (ins_block_ok ll (rr - ll) a) as (a1 & E1 & F1 & S1); [lia|lia|]. replace (ll + (rr - ll)) with rr in * by lia. rewrite E1. cbn [bind].
  pose proof (proj1 F1) as L1. destruct (IH rr a1) as (a' & E' & F' & S'); [lia|lia|lia|]. exists a'. split; [exact E'|]. split.
  { eapply frame_trans; [eapply frame_weak; [| |exact F1]; lia|eapply frame_weak; [| |exact F']; lia]. }
  intros [|b].
  - replace (mn (ll + 0 * 16) r) with ll by lia. replace (mn (ll + 1 * 16) r) with rr by (unfold rr; lia).
    rewrite (frame_slice _ _ _ _ ll rr F') by lia. exact S1.
  - specialize (S' b). replace (mn (ll + S b * 16) r) with (mn (rr + b * 16) r) by (unfold rr; lia).
    replace (mn (ll + S (S b) * 16) r) with (mn (rr + S b * 16) r) by (unfold rr; lia).
    rewrite (frame_slice _ _ _ _ _ (mn (rr + S b * 16) r) F1) in S' by lia. exact S'.
Qed.

Lemma copy_seg_ok (src : list A) : forall n s d (dst : list A), s + n <= length src -> d + n <= length dst ->
  exists d', copy_seg src dst s d n = Some d' /\ frame d (d + n) dst d' /\ slice d' d (d + n) = slice src s (s + n).
Proof.
  induction n as [|n IH]; intros s d dst Hs Hd; cbn [copy_seg].
  - exists dst. split; [reflexivity|]. split; [apply frame_refl|]. rewrite !slice_nil by lia. reflexivity.
  - destruct (nth_error_lt_some src s ltac:(lia)) as [x Hx]. rewrite Hx. destruct (upd_some dst d x ltac:(lia)) as [d1 E1]. rewrite E1. cbn [bind].
    pose proof (upd_length _ _ _ _ E1) as L1. destruct (IH (S s) (S d) d1) as (d' & E' & F' & S'); [lia|lia|]. exists d'. split; [exact E'|].
    replace (d + S n) with (S d + n) by lia. replace (s + S n) with (S s + n) by lia. split.
    + eapply frame_trans; [eapply frame_weak; [| |eapply upd_frame; exact E1]; lia|eapply frame_weak; [| |exact F']; lia].
    + rewrite (slice_cons src s (S s + n) x) by (lia || assumption). rewrite (slice_cons d' d (S d + n) x); [f_equal; exact S'|lia|].
      rewrite (proj2 F') by lia. eapply upd_nth_eq; exact E1.
Qed.

Lemma merge_loop_ok (src : list A) mid rr : mid <= length src -> rr <= length src ->
  forall fuel left right k (dst : list A), left <= mid -> right <= rr -> (mid - left) + (rr - right) <= fuel -> k + ((mid - left) + (rr - right)) <= length dst ->
  exists d', merge_loop comp fuel src dst left mid right rr k = Some d' /\ frame k (k + ((mid - left) + (rr - right))) dst d' /\
    slice d' k (k + ((mid - left) + (rr - right))) = merge comp (slice src left mid) (slice src right rr).
Proof.
  intros Hm Hr. induction fuel as [|fuel IH]; intros left right k dst Hl Hri Hf Hk.
  - cbn [merge_loop]. assert (left = mid) by lia. assert (right = rr) by lia. subst. rewrite Nat.ltb_irrefl. cbn [andb]. rewrite !Nat.sub_diag. cbn [copy_seg bind].
    exists dst. split; [reflexivity|]. split; [apply frame_refl|]. rewrite !slice_nil by lia. reflexivity.
  - cbn [merge_loop]. destruct (Nat.ltb_spec left mid) as [L|L]; [destruct (Nat.ltb_spec right rr) as [R|R]|]; cbn [andb].
    + destruct (nth_error_lt_some src left ltac:(lia)) as [x Hx]. destruct (nth_error_lt_some src right ltac:(lia)) as [y Hy]. rewrite Hx, Hy.
      rewrite (slice_cons src left mid x), (slice_cons src right rr y) by (lia || assumption). rewrite merge_cons.
      destruct (negb (comp y x)).
      * destruct (upd_some dst k x ltac:(lia)) as [d1 E1]. rewrite E1. cbn [bind]. pose proof (upd_length _ _ _ _ E1) as L1.
        destruct (IH (S left) right (S k) d1) as (d' & E' & F' & S'); [lia|lia|lia|lia|]. exists d'. split; [exact E'|].
        replace (k + (mid - left + (rr - right))) with (S k + (mid - S left + (rr - right))) by lia. split.
        -- eapply frame_trans; [eapply frame_weak; [| |eapply upd_frame; exact E1]; lia|eapply frame_weak; [| |exact F']; lia].
        -- rewrite <- (slice_cons src right rr y) by (lia || assumption). rewrite <- S'. apply slice_cons; [lia|]. rewrite (proj2 F') by lia. eapply upd_nth_eq; exact E1.
      * destruct (upd_some dst k y ltac:(lia)) as [d1 E1]. rewrite E1. cbn [bind]. pose proof (upd_length _ _ _ _ E1) as L1.
        destruct (IH left (S right) (S k) d1) as (d' & E' & F' & S'); [lia|lia|lia|lia|]. exists d'. split; [exact E'|].
        replace (k + (mid - left + (rr - right))) with (S k + (mid - left + (rr - S right))) by lia. split.
        -- eapply frame_trans; [eapply frame_weak; [| |eapply upd_frame; exact E1]; lia|eapply frame_weak; [| |exact F']; lia].
        -- rewrite <- (slice_cons src left mid x) by (lia || assumption). rewrite <- S'. apply slice_cons; [lia|]. rewrite (proj2 F') by lia. eapply upd_nth_eq; exact E1.
    + assert (right = rr) by lia. subst right. rewrite !Nat.sub_diag, !Nat.add_0_r in *. rewrite (slice_nil src rr rr) by lia. rewrite merge_nil_r.
      destruct (copy_seg_ok src (mid - left) left k dst) as (d' & E' & F' & S'); [lia|lia|]. rewrite E'. cbn [bind copy_seg]. exists d'.
      split; [reflexivity|]. split; [exact F'|]. rewrite S'. f_equal. lia.
    + assert (left = mid) by lia. subst left. rewrite !Nat.sub_diag in *. cbn [copy_seg bind Nat.add] in *. rewrite (slice_nil src mid mid) by lia. rewrite merge_nil_l.
      rewrite Nat.add_0_r. destruct (copy_seg_ok src (rr - right) right k dst) as (d' & E' & F' & S'); [lia|lia|]. exists d'. split; [exact E'|]. split; [exact F'|]. rewrite S'. f_equal. lia.
Qed.

Lemma pass_ok (src : list A) r h : 0 < h -> r <= length src -> forall fuel ll (dst : list A), ll <= r -> r <= length dst -> r - ll <= fuel ->
  exists d', pass comp fuel src dst ll r h = Some d' /\ frame ll r dst d' /\
    forall b, slice d' (mn (ll + b * (2 * h)) r) (mn (ll + S b * (2 * h)) r) =
      merge comp (slice src (mn (ll + 2 * b * h) r) (mn (ll + (2 * b + 1) * h) r)) (slice src (mn (ll + (2 * b + 1) * h) r) (mn (ll + (2 * b + 2) * h) r)).
Proof.
  intros Hh Hs. induction fuel as [|fuel IH]; intros ll dst Hl Hr Hf; cbn [pass]; destruct (Nat.ltb_spec ll r) as [H|H]; try lia.
  1, 3: exists dst; split; [reflexivity|]; split; [apply frame_refl|]; intro b; rewrite !slice_nil by lia; reflexivity.
  set (mid := mn (ll + h) r). set (rr := mn (ll + 2 * h) r).
  assert (Hm : ll <= mid <= rr) by (unfold mid, rr; lia). assert (Hrr : ll < rr <= r) by (unfold rr; lia).
  destruct (merge_loop_ok src mid rr ltac:(lia) ltac:(lia) (rr - ll) ll mid ll dst) as (d1 & E1 & F1 & S1); [lia|lia|lia|lia|].
  replace (ll + (mid - ll + (rr - mid))) with rr in * by lia. cbn zeta. fold mid rr. rewrite E1. cbn [bind]. pose proof (proj1 F1) as L1.
  destruct (Nat.le_gt_cases (ll + 2 * h) r) as [C|C].
  - assert (Err : rr = ll + 2 * h) by (unfold rr; lia).
    destruct (IH (ll + 2 * h) d1) as (d' & E' & F' & S'); [lia|lia|lia|]. exists d'. split; [exact E'|]. split.
    { eapply frame_trans; [eapply frame_weak; [| |exact F1]; lia|eapply frame_weak; [| |exact F']; lia]. }
    intros [|b].
    + replace (mn (ll + 0 * (2 * h)) r) with ll by lia. replace (mn (ll + 1 * (2 * h)) r) with rr by (unfold rr; lia).
      rewrite (frame_slice _ _ _ _ ll rr F') by lia. rewrite S1.
      replace (mn (ll + 2 * 0 * h) r) with ll by lia. replace (mn (ll + (2 * 0 + 1) * h) r) with mid by (unfold mid; lia).
      replace (mn (ll + (2 * 0 + 2) * h) r) with rr by (unfold rr; lia). reflexivity.
    + specialize (S' b). replace (ll + S b * (2 * h)) with (ll + 2 * h + b * (2 * h)) by ring. replace (ll + S (S b) * (2 * h)) with (ll + 2 * h + S b * (2 * h)) by ring.
      replace (ll + 2 * S b * h) with (ll + 2 * h + 2 * b * h) by ring. replace (ll + (2 * S b + 1) * h) with (ll + 2 * h + (2 * b + 1) * h) by ring.
      replace (ll + (2 * S b + 2) * h) with (ll + 2 * h + (2 * b + 2) * h) by ring. exact S'.
  - exists d1. split.
    { destruct fuel; cbn [pass]; (destruct (Nat.ltb_spec (ll + 2 * h) r); [lia|reflexivity]). }
    split; [eapply frame_weak; [| |exact F1]; lia|]. intros [|b].
    + replace (mn (ll + 0 * (2 * h)) r) with ll by lia. replace (mn (ll + 1 * (2 * h)) r) with rr by (unfold rr; lia). rewrite S1.
      replace (mn (ll + 2 * 0 * h) r) with ll by lia. replace (mn (ll + (2 * 0 + 1) * h) r) with mid by (unfold mid; lia).
      replace (mn (ll + (2 * 0 + 2) * h) r) with rr by (unfold rr; lia). reflexivity.
    + assert (2 * h <= S b * (2 * h)) by (rewrite <- (Nat.mul_1_l (2 * h)) at 1; apply Nat.mul_le_mono_r; lia). assert (2 * h <= 2 * S b * h) by (apply Nat.mul_le_mono_r; lia).
      assert (2 * h <= (2 * S b + 1) * h) by (apply Nat.mul_le_mono_r; lia).
      rewrite !slice_nil by lia. reflexivity.
Qed.

(** the buffer that holds the data after sorting n elements *)
Fixpoint flips (fuel h : nat) (fl : bool) (n : nat) : bool :=
  if h <? n then match fuel with O => fl | S f => flips f (2 * h) (negb fl) n end else fl.

Definition blocks (h l r : nat) (inp cur : list A) : Prop :=
  forall b, SS (slice inp (mn (l + b * h) r) (mn (l + S b * h) r)) (slice cur (mn (l + b * h) r) (mn (l + S b * h) r)).
Lemma pass_blocks (inp src dst d' : list A) h l r : l <= r -> blocks h l r inp src ->
  (forall b, slice d' (mn (l + b * (2 * h)) r) (mn (l + S b * (2 * h)) r) =
      merge comp (slice src (mn (l + 2 * b * h) r) (mn (l + (2 * b + 1) * h) r)) (slice src (mn (l + (2 * b + 1) * h) r) (mn (l + (2 * b + 2) * h) r))) ->
  frame l r dst d' -> blocks (2 * h) l r inp d'.
Proof.
  intros Hl B M F b. rewrite M. pose proof (B (2 * b)) as B0. pose proof (B (2 * b + 1)) as B1.
  replace (S (2 * b) * h) with ((2 * b + 1) * h) in B0 by ring. replace (S (2 * b + 1) * h) with ((2 * b + 2) * h) in B1 by ring.
  replace (b * (2 * h)) with (2 * b * h) by ring. replace (S b * (2 * h)) with ((2 * b + 2) * h) by ring.
  assert (2 * b * h <= (2 * b + 1) * h) by (apply Nat.mul_le_mono_r; lia). assert ((2 * b + 1) * h <= (2 * b + 2) * h) by (apply Nat.mul_le_mono_r; lia).
  rewrite (slice_app inp (mn (l + 2 * b * h) r) (mn (l + (2 * b + 1) * h) r)) by lia. apply SS_merge; assumption.
Qed.
Lemma passes_ok (inp : list A) l r : l <= r -> forall fuel (a o : list A) (fl : bool) h, 0 < h -> r <= length a -> r <= length o -> r - l <= h + fuel ->
  blocks h l r inp (if fl then o else a) ->
  exists a' o', passes comp fuel a o fl h l r = Some (a', o', flips fuel h fl (r - l)) /\ frame l r a a' /\ frame l r o o' /\
    SS (slice inp l r) (slice (if flips fuel h fl (r - l) then o' else a') l r).
Proof.
  intro Hl. induction fuel as [|fuel IH]; intros a o fl h Hh Ha Ho Hf B; cbn [passes flips]; destruct (Nat.ltb_spec h (r - l)) as [H|H]; try lia.
  1, 3: exists a, o; split; [reflexivity|]; split; [apply frame_refl|]; split; [apply frame_refl|];
    specialize (B 0); replace (mn (l + 0 * h) r) with l in B by lia; replace (mn (l + 1 * h) r) with r in B by lia; exact B.
  destruct fl; cbn [negb].
  - destruct (pass_ok o r h Hh Ho (r - l) l a) as (a1 & E1 & F1 & S1); [lia|lia|lia|]. rewrite E1. cbn [bind]. pose proof (proj1 F1) as L1.
    destruct (IH a1 o false (2 * h)) as (a' & o' & E' & F' & G' & S'); [lia|lia|lia|lia|eapply pass_blocks; eassumption|].
    exists a', o'. split; [exact E'|]. split; [eapply frame_trans; eassumption|]. split; assumption.
  - destruct (pass_ok a r h Hh Ha (r - l) l o) as (o1 & E1 & F1 & S1); [lia|lia|lia|]. rewrite E1. cbn [bind]. pose proof (proj1 F1) as L1.
    destruct (IH a o1 true (2 * h)) as (a' & o' & E' & F' & G' & S'); [lia|lia|lia|lia|eapply pass_blocks; eassumption|].
    exists a', o'. split; [exact E'|]. split; [assumption|]. split; [eapply frame_trans; eassumption|assumption].
Qed.
Definition chunk_flip (n : nat) : bool := flips n 16 false n.
Lemma local_sort_ok l r (a o : list A) : l <= r -> r <= length a -> r <= length o ->
  exists a' o', local_sort comp l r a o = Some (a', o', chunk_flip (r - l)) /\ frame l r a a' /\ frame l r o o' /\
    SS (slice a l r) (slice (if chunk_flip (r - l) then o' else a') l r).
Proof.
  intros Hl Ha Ho. unfold local_sort. destruct (ins_phase_ok r (r - l) l a) as (a1 & E1 & F1 & S1); [lia|lia|lia|]. rewrite E1. cbn [bind].
  pose proof (proj1 F1) as L1. destruct (passes_ok a l r Hl (r - l) a1 o false 16) as (a' & o' & E' & F' & G' & S'); [lia|lia|lia|lia|exact S1|].
  exists a', o'. split; [exact E'|]. split; [eapply frame_trans; eassumption|]. split; assumption.
Qed.
Lemma merge_sort_ok (a o : list A) : length o = length a -> exists out, merge_sort comp a o = Some out /\ SS a out.
Proof.
  intro L. unfold merge_sort. destruct (local_sort_ok 0 (length a) a o) as (a' & o' & E & F & G & S); [lia|lia|lia|]. rewrite E. cbn [bind].
  rewrite slice_all in S. pose proof (proj1 F) as LF. pose proof (proj1 G) as LG. destruct (chunk_flip _).
  - destruct (copy_seg_ok o' (length a) 0 0 a') as (d & Ed & Fd & Sd); [lia|lia|]. exists d. split; [exact Ed|]. cbn [Nat.add] in Sd.
    rewrite <- (slice_all d), (proj1 Fd), LF, Sd. exact S.
  - exists a'. split; [reflexivity|]. rewrite <- LF, slice_all in S. exact S.
Qed.
End P.
