From Coq Require Import Sorted.
From Verif Require Import Prelude SortModel SortSpec SortProofs.

Section Q.
Context {A : Type}.
Variable lt : A -> A -> bool.
Hypothesis SWO : strict_weak_order lt.

Lemma swap_ok (a : list A) i j x y : nth_error a i = Some x -> nth_error a j = Some y ->
  exists a', swap a i j = Some a' /\ length a' = length a /\ nth_error a' j = Some x /\ (i <> j -> nth_error a' i = Some y) /\
    (forall k, k <> i -> k <> j -> nth_error a' k = nth_error a k) /\ Permutation a a'.
Proof.
  intros Hi Hj. unfold swap. rewrite Hi, Hj. destruct (upd_some a i y ltac:(eapply nth_error_some_lt; exact Hi)) as [a1 E1]. rewrite E1. cbn [bind].
  pose proof (upd_length _ _ _ _ E1) as L1.
  destruct (upd_some a1 j x ltac:(rewrite L1; eapply nth_error_some_lt; exact Hj)) as [a2 E2]. rewrite E2. pose proof (upd_length _ _ _ _ E2) as L2.
  exists a2. split; [reflexivity|]. split; [lia|]. 
  assert (V1 : nth_error a2 j = Some x) by (eapply upd_nth_eq; exact E2).
  assert (V2 : i <> j -> nth_error a2 i = Some y) by (intro Ne; rewrite (upd_nth_neq _ _ _ _ _ E2) by auto; eapply upd_nth_eq; exact E1).
  assert (V3 : forall k, k <> i -> k <> j -> nth_error a2 k = nth_error a k) by (intros k K1 K2; rewrite (upd_nth_neq _ _ _ _ _ E2) by auto; rewrite (upd_nth_neq _ _ _ _ _ E1) by auto; reflexivity).
  split; [exact V1|]. split; [exact V2|]. split; [exact V3|].
  apply Permutation_nth_error. split; [lia|]. exists (fun k => if k =? i then j else if k =? j then i else k). split.
  - intros p q. destruct (Nat.eqb_spec p i), (Nat.eqb_spec q i), (Nat.eqb_spec p j), (Nat.eqb_spec q j); lia.
  - intro k. destruct (Nat.eqb_spec k i) as [->|Ki].
    + destruct (Nat.eq_dec i j) as [->|Ne]; [rewrite V1, Hi; reflexivity|]. rewrite V2, Hj by exact Ne. reflexivity.
    + destruct (Nat.eqb_spec k j) as [->|Kj]; [rewrite V1, Hi; reflexivity|]. apply V3; assumption.
Qed.
Lemma perm_frame_slice l r (a a' : list A) : l <= r <= length a -> frame l r a a' -> Permutation a a' -> Permutation (slice a l r) (slice a' l r).
Proof.
  intros H F P. pose proof (slice_frame_all l r a a' _ F eq_refl H) as E'. pose proof (slice_frame_all l r a a _ (frame_refl l r a) eq_refl H) as E.
  rewrite E in P at 1. rewrite E' in P. apply Permutation_app_inv_l in P. apply Permutation_app_inv_r in P. exact P.
Qed.

Lemma part_ok r p : forall m j pi (a : list A), j + m = r -> r < length a -> nth_error a r = Some p -> pi <= j ->
  forall l, l <= pi -> (forall i, l <= i < pi -> exists x, nth_error a i = Some x /\ lt x p = true) ->
  (forall i, pi <= i < j -> exists x, nth_error a i = Some x /\ lt x p = false) ->
  exists a' pi', part_loop lt m j r pi a = Some (a', pi') /\ pi <= pi' <= r /\ frame l r a a' /\ Permutation a a' /\
    (forall i, l <= i < pi' -> exists x, nth_error a' i = Some x /\ lt x p = true) /\
    (forall i, pi' <= i < r -> exists x, nth_error a' i = Some x /\ lt x p = false).
Proof.
  induction m as [|m IH]; intros j pi a Hj Hr Hp Hpi l Hl H1 H2; cbn [part_loop].
  - exists a, pi. replace r with j in * by lia. split; [reflexivity|]. split; [lia|]. split; [apply frame_refl|]. split; [apply Permutation_refl|]. auto.
  - destruct (nth_error_lt_some a j ltac:(lia)) as [x Hx]. rewrite Hx, Hp. destruct (lt x p) eqn:E.
    + destruct (nth_error_lt_some a pi ltac:(lia)) as [y Hy].
      destruct (swap_ok a pi j y x Hy Hx) as (a1 & E1 & L1 & S1 & S2 & S3 & P1). rewrite E1. cbn [bind].
      destruct (IH (S j) (S pi) a1) with (l := l) as (a' & pi' & Q1 & Q2 & Q3 & Q4 & Q5 & Q6); try lia.
      * rewrite S3 by lia. exact Hp.
      * intros i Hi. destruct (Nat.eq_dec i pi) as [->|Ne].
        -- destruct (Nat.eq_dec pi j) as [->|Nj]; [exists y; split; [exact S1|congruence]|]. exists x. split; [apply S2; exact Nj|exact E].
        -- rewrite S3 by lia. apply H1. lia.
      * intros i Hi. destruct (Nat.eq_dec i j) as [->|Ne].
        -- exists y. split; [exact S1|]. destruct (H2 pi ltac:(lia)) as (z & Z1 & Z2). congruence.
        -- rewrite S3 by lia. apply H2. lia.
      * exists a', pi'. split; [exact Q1|]. split; [lia|]. split; [|split; [rewrite P1; exact Q4|auto]].
        eapply frame_trans; [|exact Q3]. split; [exact L1|]. intros i Hi. apply S3; lia.
    + destruct (IH (S j) pi a) with (l := l) as (a' & pi' & Q); try lia; auto.
      * intros i Hi. destruct (Nat.eq_dec i j) as [->|Ne]; [exists x; auto|]. apply H2. lia.
      * exists a', pi'. exact Q.
Qed.

Lemma in_slice (a : list A) l r x : In x (slice a l r) <-> exists i, l <= i < r /\ nth_error a i = Some x.
Proof.
  split.
  - intro H. apply In_nth_error in H as [i Hi]. rewrite nth_slice in Hi. destruct (Nat.ltb_spec i (r - l)); [|discriminate]. exists (l + i). split; [lia|exact Hi].
  - intros (i & Hi & E). apply (nth_error_In _ (i - l)). rewrite nth_slice. destruct (Nat.ltb_spec (i - l) (r - l)); [|lia]. rewrite <- E. f_equal. lia.
Qed.
Lemma quick_ok : forall fuel l n (a : list A), n <= fuel -> l + n <= length a ->
  exists a', quick_sort lt fuel l n a = Some a' /\ frame l (l + n) a a' /\ Permutation a a' /\ ascending lt (slice a' l (l + n)).
Proof.
  induction fuel as [|fuel IH]; intros l n a Hn Hl; cbn [quick_sort]; destruct (Nat.leb_spec n 1) as [C|C]; try lia.
  1, 2: exists a; split; [reflexivity|]; split; [apply frame_refl|]; split; [apply Permutation_refl|].
  1, 2: assert (length (slice a l (l + n)) <= 1) as K by (rewrite slice_length by lia; lia);
    destruct (slice a l (l + n)) as [|x [|y t]]; [constructor|repeat constructor|cbn in K; lia].
  set (r := l + n - 1). destruct (nth_error_lt_some a r ltac:(unfold r; lia)) as [p Hp].
  destruct (part_ok r p (r - l) l l a) with (l := l) as (a1 & pi & E1 & B1 & F1 & P1 & V1 & V2); try (unfold r; lia); try assumption; try (intros i Hi; lia).
  rewrite E1. cbn [bind]. pose proof (proj1 F1) as L1.
  assert (Hp1 : nth_error a1 r = Some p) by (rewrite (proj2 F1) by lia; exact Hp).
  destruct (nth_error_lt_some a1 pi ltac:(lia)) as [y Hy].
  destruct (swap_ok a1 pi r y p Hy Hp1) as (a2 & E2 & L2 & S1 & S2 & S3 & P2). rewrite E2. cbn [bind].
  assert (Vp : nth_error a2 pi = Some p) by (destruct (Nat.eq_dec pi r) as [->|Ne]; [congruence|apply S2; exact Ne]).
  destruct (IH l (pi - l) a2) as (a3 & E3 & F3 & P3 & A3); [lia|unfold r in *; lia|]. rewrite E3. cbn [bind]. pose proof (proj1 F3) as L3.
  replace (l + (pi - l)) with pi in * by lia.
  destruct (IH (S pi) (r - pi) a3) as (a4 & E4 & F4 & P4 & A4); [unfold r in *; lia|unfold r in *; lia|]. 
  replace (S pi + (r - pi)) with (l + n) in * by (unfold r in *; lia).
  exists a4. split; [exact E4|].
  assert (F2 : frame l (l + n) a1 a2) by (split; [exact L2|]; intros i Hi; apply S3; unfold r in *; lia).
  split; [|split].
  - eapply frame_trans; [eapply frame_weak; [| |exact F1]; unfold r; lia|]. eapply frame_trans; [exact F2|].
    eapply frame_trans; [eapply frame_weak; [| |exact F3]; unfold r in *; lia|eapply frame_weak; [| |exact F4]; lia].
  - rewrite P1, P2, P3. exact P4.
  - assert (W1 : forall x, In x (slice a4 l pi) -> lt x p = true).
    { intros x Hx. rewrite (frame_slice _ _ _ _ l pi F4) in Hx by lia.
      apply (Permutation_in x (Permutation_sym (perm_frame_slice l pi a2 a3 ltac:(lia) F3 P3))) in Hx.
      apply in_slice in Hx as (i & Hi & Ei). rewrite S3 in Ei by lia. destruct (V1 i Hi) as (z & Z1 & Z2). congruence. }
    assert (Wp : nth_error a4 pi = Some p) by (rewrite (proj2 F4) by lia; rewrite (proj2 F3) by lia; exact Vp).
    assert (W2 : forall x, In x (slice a4 (S pi) (l + n)) -> lt x p = false).
    { intros x Hx. apply (Permutation_in x (Permutation_sym (perm_frame_slice (S pi) (l + n) a3 a4 ltac:(unfold r in *; lia) F4 P4))) in Hx.
      rewrite (frame_slice _ _ _ _ (S pi) (l + n) F3) in Hx by lia. apply in_slice in Hx as (i & Hi & Ei).
      destruct (Nat.eq_dec i r) as [->|Ne].
      - rewrite S1 in Ei. injection Ei as ->. destruct (V2 pi ltac:(lia)) as (z & Z1 & Z2). congruence.
      - rewrite S3 in Ei by lia. destruct (V2 i ltac:(unfold r in *; lia)) as (z & Z1 & Z2). congruence. }
    rewrite (slice_app a4 l pi (l + n)) by (unfold r in *; lia). rewrite (slice_cons a4 pi (l + n) p) by (unfold r in *; lia || assumption).
    apply ss_app_iff. split; [rewrite (frame_slice _ _ _ _ l pi F4) by lia; exact A3|]. split.
    + constructor; [exact A4|]. apply Forall_forall. exact W2.
    + intros x z Hx [<-|Hz]; [apply c_asym; auto|]. destruct (lt z x) eqn:Q; [|reflexivity].
      destruct SWO as (_ & T & _). specialize (W2 z Hz). rewrite (T z x p Q (W1 x Hx)) in W2. discriminate.
Qed.
Lemma sort_pair_ok compOp (a : list A) : exists a', sort_pair lt compOp a = Some a' /\ Permutation a a' /\ ascending lt a'.
Proof.
  unfold sort_pair. destruct (quick_ok (length a) 0 (length a) a) as (a' & E & F & P & S); [lia|lia|]. exists a'. split; [exact E|]. split; [exact P|].
  cbn [Nat.add] in S. rewrite <- (proj1 F), slice_all in S. exact S.
Qed.
End Q.
