From Verif Require Import Prelude StrModel StrSpec.

Lemma upd_app_hd {A} (p : list A) c d t : upd (p ++ d :: t) (length p) c = Some (p ++ c :: t).
Proof. induction p as [|h p IH]; simpl; [reflexivity|]. rewrite IH. reflexivity. Qed.

Lemma nth_error_mid {A} (p : list A) d t : nth_error (p ++ d :: t) (length p) = Some d.
Proof. rewrite nth_error_app2 by lia. rewrite Nat.sub_diag. reflexivity. Qed.

Section P.
  Variable nb : nat.
  Hypothesis Hnb : 1 <= nb.

  (** the copying loop appends a prefix of the source *)
  Lemma copy_loop_ok : forall s sp rest p tail fuel,
    ~ In 0 s -> length p + length tail = nb -> 1 <= length tail -> length tail < fuel ->
    let k := Nat.min (length s) (length tail - 1) in
    copy_loop nb fuel (length p) (length sp) (sp ++ s ++ 0 :: rest) (p ++ tail)
    = Some (length p + k, p ++ firstn k s ++ skipn k tail).
  Proof.
    induction s as [|c s IH]; intros sp rest p tail fuel Hs Hl H1 Hf; cbn zeta.
    - destruct fuel as [|fuel]; [lia|]. cbn [copy_loop].
      rewrite Nat.min_0_l. cbn [firstn skipn app]. rewrite Nat.add_0_r.
      destruct (Nat.eqb_spec (length p + 1) nb); [reflexivity|].
      rewrite nth_error_mid. reflexivity.
    - destruct fuel as [|fuel]; [lia|]. cbn [copy_loop].
      destruct (Nat.eqb_spec (length p + 1) nb) as [E|E].
      + replace (length tail - 1) with 0 by lia. rewrite Nat.min_0_r.
        cbn [firstn skipn app]. rewrite Nat.add_0_r. reflexivity.
      + cbn [app]. rewrite nth_error_mid.
        destruct (Nat.eqb_spec c 0) as [E0|E0]; [exfalso; apply Hs; left; exact E0|].
        destruct tail as [|d tail]; [cbn in *; lia|].
        rewrite upd_app_hd.
        specialize (IH (sp ++ [c]) rest (p ++ [c]) tail fuel).
        rewrite !app_length in IH. cbn [length] in IH.
        replace (length p + 1) with (S (length p)) in IH by lia.
        replace (length sp + 1) with (S (length sp)) in IH by lia.
        cbn zeta in IH. rewrite <- !app_assoc in IH. cbn [app] in IH.
        rewrite IH.
        * cbn [length]. replace (S (length tail) - 1) with (S (length tail - 1)) by (cbn in *; lia).
          rewrite <- Nat.succ_min_distr. cbn [firstn skipn app]. f_equal. f_equal. lia.
        * intro Hin; apply Hs; right; exact Hin.
        * cbn in Hl. lia.
        * cbn in *. lia.
        * cbn in *. lia.
  Qed.

  Lemma firstn_min_sub {A} (s : list A) n : firstn (Nat.min (length s) n) s = firstn n s.
  Proof.
    destruct (Nat.le_ge_cases (length s) n).
    - rewrite Nat.min_l by lia. rewrite firstn_all, firstn_all2 by lia. reflexivity.
    - rewrite Nat.min_r by lia. reflexivity.
  Qed.

  Lemma notin_firstn (s : list nat) k : ~ In 0 s -> ~ In 0 (firstn k s).
  Proof. intros H Hin. apply H. rewrite <- (firstn_skipn k s). apply in_or_app. auto. Qed.

  Lemma upd_skipn_hd (p tail : list nat) n : 1 <= length tail -> n = length p ->
    upd (p ++ tail) n 0 = Some (p ++ 0 :: tl tail).
  Proof. intros H ->. destruct tail; [cbn in H; lia|]. apply upd_app_hd. Qed.

  Lemma of_cstr_ok mem s : Holds mem s ->
    exists b, str_of_cstr nb mem = Some b /\ length b = nb /\ Holds b (firstn (nb - 1) s).
  Proof.
    intros [Hs [rest ->]]. unfold str_of_cstr.
    pose proof (copy_loop_ok s [] rest [] (repeat 0 nb) (S nb) Hs) as H.
    rewrite repeat_length in H. cbn [length app] in H. cbn zeta in H.
    rewrite H by lia. clear H.
    set (k := Nat.min (length s) (nb - 1)). cbn [plus].
    assert (Hk : length (firstn k s) = k) by (rewrite firstn_length; lia).
    rewrite upd_skipn_hd by (rewrite ?skipn_length, ?repeat_length; lia).
    eexists; split; [reflexivity|]. split.
    - rewrite app_length. cbn [length]. rewrite length_tl, skipn_length, repeat_length, Hk. lia.
    - unfold k. rewrite firstn_min_sub. split; [apply notin_firstn; exact Hs|]. eauto.
  Qed.

  Lemma plus_ok a b sa sb : Holds a sa -> Holds b sb ->
    exists r, str_plus nb a b = Some r /\ length r = nb /\ Holds r (firstn (nb - 1) (sa ++ sb)).
  Proof.
    intros [Ha [ra ->]] [Hb [rb ->]]. unfold str_plus.
    pose proof (copy_loop_ok sa [] ra [] (repeat 0 nb) (S nb) Ha) as H.
    rewrite repeat_length in H. cbn [length app] in H. cbn zeta in H.
    rewrite H by lia. clear H.
    set (k := Nat.min (length sa) (nb - 1)). cbn [plus].
    assert (Hk : length (firstn k sa) = k) by (rewrite firstn_length; lia).
    pose proof (copy_loop_ok sb [] rb (firstn k sa) (skipn k (repeat 0 nb)) (S nb) Hb) as H.
    rewrite Hk, skipn_length, repeat_length in H. cbn [length app] in H. cbn zeta in H.
    rewrite H by lia. clear H.
    set (k2 := Nat.min (length sb) (nb - k - 1)).
    assert (Hk2 : length (firstn k2 sb) = k2) by (rewrite firstn_length; lia).
    rewrite app_assoc.
    assert (Hk3 : length (firstn k sa ++ firstn k2 sb) = k + k2) by (rewrite app_length; lia).
    rewrite upd_skipn_hd by (rewrite ?skipn_length, ?repeat_length; lia).
    assert (Hcat : firstn k sa ++ firstn k2 sb = firstn (nb - 1) (sa ++ sb)).
    { rewrite firstn_app. unfold k. rewrite firstn_min_sub. f_equal.
      unfold k2. replace (nb - k - 1) with (nb - 1 - k) by lia.
      rewrite firstn_min_sub. unfold k.
      destruct (Nat.le_ge_cases (length sa) (nb - 1)).
      - rewrite Nat.min_l by lia. reflexivity.
      - rewrite Nat.min_r by lia. replace (nb - 1 - (nb - 1)) with 0 by lia.
        replace (nb - 1 - length sa) with 0 by lia. reflexivity. }
    eexists; split; [reflexivity|]. split.
    - rewrite app_length. cbn [length]. rewrite length_tl, !skipn_length, repeat_length, Hk3. lia.
    - rewrite Hcat. split.
      + apply notin_firstn. intro Hin. apply in_app_or in Hin. tauto.
      + eauto.
  Qed.

  Lemma fill_loop_ok : forall k i src dst, i + k <= length src -> i + k <= length dst ->
    fill_loop k i src dst = Some (firstn i dst ++ firstn k (skipn i src) ++ skipn (i + k) dst).
  Proof.
    induction k as [|k IH]; intros i src dst H1 H2; cbn [fill_loop].
    - cbn [firstn]. rewrite Nat.add_0_r. cbn [app]. rewrite firstn_skipn. reflexivity.
    - destruct (nth_error_lt_some src i) as [c Ec]; [lia|]. rewrite Ec.
      destruct (upd_some dst i c) as [d Ed]; [lia|]. rewrite Ed.
      pose proof (upd_length _ _ _ _ Ed) as HL.
      rewrite IH by lia.
      assert (Hd : d = firstn i dst ++ c :: skipn (S i) dst).
      { clear -Ed. revert i d Ed. induction dst as [|h t IHt]; intros i d Ed; [discriminate|].
        destruct i; cbn in Ed; [injection Ed as <-; reflexivity|].
        destruct (upd t i c) eqn:E; [|discriminate]. cbn in Ed. injection Ed as <-.
        cbn [firstn app]. rewrite (IHt _ _ E) at 1. reflexivity. }
      assert (Hi : length (firstn i dst) = i) by (rewrite firstn_length; lia).
      assert (Hc : skipn i src = c :: skipn (S i) src).
      { clear -Ec. revert i Ec. induction src as [|h t IHt]; intros i Ec; [destruct i; discriminate|].
        destruct i; cbn in Ec; [injection Ec as <-; reflexivity|]. cbn [skipn]. rewrite (IHt _ Ec). reflexivity. }
      rewrite Hc. change (firstn (S k) (c :: skipn (S i) src)) with (c :: firstn k (skipn (S i) src)).
      f_equal. rewrite Hd at 1. rewrite firstn_app, Hi.
      rewrite firstn_firstn. replace (Nat.min (S i) i) with i by lia.
      replace (S i - i) with 1 by lia. cbn [firstn].
      rewrite <- !app_assoc. cbn [app]. do 3 f_equal.
      rewrite Hd. rewrite skipn_app, Hi. rewrite skipn_all2 by lia. cbn [app].
      replace (S i + k - i) with (S k) by lia. cbn [skipn].
      replace (i + S k) with (k + S i) by lia. rewrite <- skipn_skipn'. reflexivity.
  Qed.

  Lemma of_str_ok garbage str : length garbage = nb ->
    exists b, str_of_str nb garbage str = Some b /\ length b = nb /\
      firstn (Nat.min (length str) (nb - 1)) b = firstn (nb - 1) str /\
      nth_error b (Nat.min (length str) (nb - 1)) = Some 0.
  Proof.
    intro Hg. unfold str_of_str.
    assert (Hn : (if length str <? nb then length str else nb - 1) = Nat.min (length str) (nb - 1)).
    { destruct (Nat.ltb_spec (length str) nb); lia. }
    rewrite Hn. set (n := Nat.min (length str) (nb - 1)).
    destruct (upd_some garbage n 0) as [b Eb]; [lia|]. rewrite Eb.
    pose proof (upd_length _ _ _ _ Eb) as HL.
    rewrite fill_loop_ok by lia. cbn [firstn skipn app plus].
    assert (Hl : length (firstn n str) = n) by (rewrite firstn_length; lia).
    eexists; split; [reflexivity|]. split; [|split].
    - rewrite app_length, skipn_length, Hl. lia.
    - rewrite <- Hl at 1. rewrite firstn_app, Nat.sub_diag, firstn_all. cbn [firstn].
      rewrite app_nil_r. unfold n. apply firstn_min_sub.
    - rewrite nth_error_app2 by lia. rewrite Hl, Nat.sub_diag.
      pose proof (upd_nth_eq _ _ _ _ Eb) as E.
      rewrite <- (firstn_skipn n b) in E. rewrite nth_error_app2 in E by (rewrite firstn_length; lia).
      rewrite firstn_length in E. replace (n - Nat.min n (length b)) with 0 in E by lia. exact E.
  Qed.

  Lemma size_loop_ok : forall s p rest fuel, ~ In 0 s -> length s < fuel ->
    size_loop fuel (length p) (p ++ s ++ 0 :: rest) = Some (length p + length s).
  Proof. clear Hnb.
    induction s as [|c s IH]; intros p rest fuel Hs Hf; (destruct fuel as [|fuel]; [cbn in Hf; lia|]); cbn [size_loop app].
    - rewrite nth_error_mid. cbn. f_equal. lia.
    - rewrite nth_error_mid. destruct (Nat.eqb_spec c 0) as [E|E]; [exfalso; apply Hs; left; auto|].
      specialize (IH (p ++ [c]) rest fuel). rewrite app_length in IH. cbn [length] in IH.
      rewrite <- app_assoc in IH. cbn [app] in IH.
      replace (length p + 1) with (S (length p)) in IH by lia. rewrite IH.
      + f_equal. cbn. lia.
      + intro; apply Hs; right; auto.
      + cbn in Hf; lia.
  Qed.

  Lemma size_ok b s : length b = nb -> Holds b s -> str_size nb b = Some (length s).
  Proof.
    clear Hnb. intros Hl [Hs [rest ->]]. unfold str_size.
    apply (size_loop_ok s [] rest (S nb)); [exact Hs|].
    rewrite app_length in Hl. cbn in Hl. lia.
  Qed.

  Lemma eq_loop_ok : forall s t p q rb rt fuel,
    ~ In 0 s -> ~ In 0 t -> length p = length q -> length s < fuel ->
    eq_loop fuel (length p) (length p + length s) (p ++ s ++ 0 :: rb) (q ++ t ++ 0 :: rt)
    = Some (if list_eq_dec Nat.eq_dec s t then true else false).
  Proof. clear Hnb.
    induction s as [|c s IH]; intros t p q rb rt fuel Hs Ht Hpq Hf; (destruct fuel as [|fuel]; [cbn in Hf; lia|]);
      cbn [eq_loop app length].
    - rewrite Nat.add_0_r, Nat.eqb_refl. rewrite nth_error_mid. cbn [Nat.eqb].
      rewrite Hpq. destruct t as [|d t]; cbn [app]; rewrite nth_error_mid.
      + reflexivity.
      + destruct (Nat.eqb_spec d 0) as [E|E]; [exfalso; apply Ht; left; auto|]. reflexivity.
    - destruct (Nat.eqb_spec (length p) (length p + S (length s))) as [E|_]; [lia|].
      rewrite Hpq at 1. rewrite nth_error_mid.
      destruct t as [|d t]; cbn [app]; rewrite nth_error_mid.
      + cbn [Nat.eqb]. destruct (Nat.eqb_spec c 0) as [E|E]; [exfalso; apply Hs; left; auto|]. reflexivity.
      + destruct (Nat.eqb_spec d 0) as [E|E]; [exfalso; apply Ht; left; auto|].
        destruct (Nat.eqb_spec c d) as [->|Ne].
        * specialize (IH t (p ++ [d]) (q ++ [d]) rb rt fuel).
          rewrite !app_length in IH. cbn [length] in IH. rewrite <- !app_assoc in IH. cbn [app] in IH.
          replace (length p + 1) with (S (length p)) in IH by lia.
          replace (length p + S (length s)) with (S (length p) + length s) by lia. rewrite IH.
          -- destruct (list_eq_dec Nat.eq_dec s t), (list_eq_dec Nat.eq_dec (d::s) (d::t)); congruence.
          -- intro; apply Hs; right; auto.
          -- intro; apply Ht; right; auto.
          -- lia.
          -- cbn in Hf; lia.
        * destruct (list_eq_dec Nat.eq_dec (c::s) (d::t)); congruence.
  Qed.

  Lemma eq_ok b s mem t : length b = nb -> Holds b s -> Holds mem t ->
    str_eq nb b mem = Some (if list_eq_dec Nat.eq_dec s t then true else false).
  Proof.
    clear Hnb. intros Hl HB HM. unfold str_eq. rewrite (size_ok b s Hl HB).
    destruct HB as [Hs [rb ->]], HM as [Ht [rt ->]].
    apply (eq_loop_ok s t [] [] rb rt (S nb) Hs Ht eq_refl).
    rewrite app_length in Hl. cbn in Hl. lia.
  Qed.
End P.
