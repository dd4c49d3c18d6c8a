From Verif Require Import Prelude RingModel RingSpec.
Local Open Scope Z_scope.

Section P.
  Context {T : Type}.
  Variable Size : Z.
  Hypothesis HS : 1 <= Size.

  Definition RInv (r : ring T) (l : list T) : Prop :=
    Z.of_nat (length (r_buf r)) = Size /\
    0 <= r_tail r < Size /\ 0 <= r_head r /\
    0 <= r_size r <= Size /\ r_size r = Z.of_nat (length l) /\
    (r_head r + r_size r - 1 - r_tail r) mod Size = 0 /\
    forall i, 0 <= i < r_size r ->
      nth_error (r_buf r) (Z.to_nat ((r_head r + i) mod Size)) = nth_error l (Z.to_nat i).

  Lemma mod_small_eq a b : 0 <= b < Size -> (a - b) mod Size = 0 -> a mod Size = b.
  Proof.
    intros Hb H. apply Z.mod_divide in H; [|lia]. destruct H as [k Hk].
    replace a with (b + k * Size) by lia. rewrite Z.mod_add by lia. apply Z.mod_small; lia.
  Qed.

  Lemma mod_eq_sub a b : a mod Size = b mod Size -> (a - b) mod Size = 0.
  Proof. intros H. rewrite Zminus_mod, H, Z.sub_diag. apply Z.mod_0_l; lia. Qed.

  Lemma mod_zero_sub a b : (a - b) mod Size = 0 -> a mod Size = b mod Size.
  Proof.
    intros H. replace a with (b + (a - b)) by lia. rewrite Zplus_mod, H, Z.add_0_r.
    apply Z.mod_mod; lia.
  Qed.

  Lemma mod_neq h a b : 0 < b - a < Size -> (h + a) mod Size <> (h + b) mod Size.
  Proof.
    intros Hab E'. apply mod_eq_sub in E'. apply Z.mod_divide in E'; [|lia].
    destruct E' as [k Hk]. assert (k = 0 \/ k <= -1 \/ k >= 1) as [?|[?|?]] by lia; nia.
  Qed.

  Lemma init_inv b : Z.of_nat (length b) = Size -> RInv (ring_init b) [].
  Proof.
    intro H. unfold RInv, ring_init; cbn. repeat split; try lia.
  Qed.

  (** effect of the index part of a push *)
  Lemma push_idx r l :
    RInv r l ->
    let r2 := push_raw Size r in
    r_buf r2 = r_buf r /\ 0 <= r_tail r2 < Size /\ 0 <= r_head r2 /\
    (r_tail r2 = (r_head r + r_size r) mod Size) /\
    (r_size r < Size -> r_size r2 = r_size r + 1 /\ r_head r2 = r_head r) /\
    (r_size r = Size -> r_size r2 = Size /\ (r_head r2 mod Size = (r_head r + 1) mod Size)).
  Proof.
    intros (HL & Ht & Hh & Hs & Hl & Hm & Hn). cbn zeta.
    assert (Ht' : (if r_tail r + 1 =? Size then 0 else r_tail r + 1)
                  = (r_head r + r_size r) mod Size).
    { destruct (Z.eqb_spec (r_tail r + 1) Size) as [E|E].
      - symmetry. apply mod_small_eq; [lia|].
        replace (r_head r + r_size r - 0) with (r_head r + r_size r - 1 - r_tail r + Size) by lia.
        rewrite <- (Z.mul_1_l Size) at 1. rewrite Z.mod_add by lia. exact Hm.
      - symmetry. apply mod_small_eq; [lia|].
        replace (r_head r + r_size r - (r_tail r + 1))
          with (r_head r + r_size r - 1 - r_tail r) by lia. exact Hm. }
    pose proof (Z.mod_pos_bound (r_head r + r_size r) Size ltac:(lia)) as Hb.
    unfold push_raw, incTail, incHead; cbn [r_buf r_head r_tail r_size].
    destruct (Z.ltb_spec Size (r_size r + 1)) as [G|G]; cbn [r_buf r_head r_tail r_size].
    - destruct (Z.eqb_spec (r_size r + 1) 0) as [E0|_]; [lia|].
      cbn [r_buf r_head r_tail r_size]. rewrite Ht'.
      split; [reflexivity|]. split; [lia|].
      split; [destruct (Z.eqb_spec (r_head r + 1) Size); lia|].
      split; [reflexivity|]. split; [lia|]. intros _. split; [lia|].
      destruct (Z.eqb_spec (r_head r + 1) Size) as [E|E]; [|reflexivity].
      rewrite E. rewrite Z.mod_same by lia. apply Z.mod_0_l; lia.
    - rewrite Ht'. repeat split; try lia.
  Qed.

  Lemma window_len (l : list T) (x : T) :
    (length l <= Z.to_nat Size)%nat ->
    window (Z.to_nat Size) (l ++ [x]) =
      if Z.of_nat (length l) <? Size then l ++ [x] else tl (l ++ [x]).
  Proof.
    intro H. unfold window. rewrite app_length. cbn [length].
    destruct (Z.ltb_spec (Z.of_nat (length l)) Size) as [G|G].
    - replace (length l + 1 - Z.to_nat Size)%nat with 0%nat by lia. reflexivity.
    - replace (length l + 1 - Z.to_nat Size)%nat with 1%nat by lia.
      destruct (l ++ [x]); reflexivity.
  Qed.

  Lemma nth_error_tl (l : list T) i : nth_error (tl l) i = nth_error l (S i).
  Proof. destruct l; [destruct i; reflexivity|reflexivity]. Qed.

  Lemma push_buf_inv r l b x :
    RInv r l -> let r2 := push_raw Size r in
    Z.of_nat (length b) = Size ->
    nth_error b (Z.to_nat (r_tail r2)) = Some x ->
    (forall j, j <> Z.to_nat (r_tail r2) -> nth_error b j = nth_error (r_buf r) j) ->
    RInv (mkRing b (r_head r2) (r_tail r2) (r_size r2)) (window (Z.to_nat Size) (l ++ [x])).
  Proof.
    intros HI. destruct (push_idx r l HI) as (E1 & Ht2 & Hh2 & Et & Hsm & Hfull).
    cbn zeta in *. generalize dependent (push_raw Size r). intros r2 E1 Ht2 Hh2 Et Hsm Hfull Hb Hx Hj.
    destruct HI as (HL & Ht & Hh & Hs & Hl & Hm & Hn).
    rewrite window_len by lia.
    destruct (Z.ltb_spec (Z.of_nat (length l)) Size) as [G|G].
    - destruct Hsm as [Es Eh]; [lia|]. clear Hfull Hm.
      unfold RInv; cbn [r_buf r_head r_tail r_size].
      rewrite app_length. cbn [length].
      split; [lia|]. split; [lia|]. split; [lia|]. split; [lia|]. split; [lia|].
      split.
      + rewrite Es, Eh, Et.
        replace (r_head r + (r_size r + 1) - 1 - (r_head r + r_size r) mod Size)
          with ((r_head r + r_size r) - (r_head r + r_size r) mod Size) by lia.
        apply mod_eq_sub. rewrite Z.mod_mod by lia. reflexivity.
      + intros i Hi. rewrite Es in Hi. rewrite Eh.
        destruct (Z.eq_dec i (r_size r)) as [->|Ne].
        * rewrite <- Et, Hx. rewrite nth_error_app2 by lia.
          replace (Z.to_nat (r_size r) - length l)%nat with 0%nat by lia. reflexivity.
        * rewrite nth_error_app1 by lia. rewrite Hj.
          -- apply Hn. lia.
          -- rewrite Et. intro E.
             apply Z2Nat.inj in E; [|apply Z.mod_pos_bound; lia|apply Z.mod_pos_bound; lia].
             revert E. apply mod_neq. clear - Hi Ne Hs G Hl. lia.
    - destruct Hfull as [Es Eh]; [lia|]. clear Hsm Hm.
      unfold RInv; cbn [r_buf r_head r_tail r_size].
      rewrite length_tl, app_length. cbn [length].
      split; [lia|]. split; [lia|]. split; [lia|]. split; [lia|]. split; [lia|].
      assert (Hsz : r_size r = Size) by lia.
      split.
      + rewrite Es, Et. rewrite Hsz.
        replace (r_head r2 + Size - 1 - (r_head r + Size) mod Size)
          with ((r_head r2 + Size) - (1 + (r_head r + Size) mod Size)) by lia.
        apply mod_eq_sub.
        rewrite Zplus_mod_idemp_r.
        rewrite (Zplus_mod (r_head r2)), Eh, <- Zplus_mod. f_equal. lia.
      + intros i Hi. rewrite nth_error_tl.
        assert (Hidx : (r_head r2 + i) mod Size = (r_head r + (i + 1)) mod Size).
        { rewrite (Zplus_mod (r_head r2)), Eh, <- Zplus_mod. f_equal. lia. }
        rewrite Hidx.
        destruct (Z.eq_dec i (Size - 1)) as [->|Ne].
        * replace (r_head r + (Size - 1 + 1)) with (r_head r + r_size r) by lia.
          rewrite <- Et, Hx. rewrite nth_error_app2 by lia.
          replace (S (Z.to_nat (Size - 1)) - length l)%nat with 0%nat by lia. reflexivity.
        * rewrite nth_error_app1 by lia. rewrite Hj.
          -- rewrite Hn by lia. f_equal. lia.
          -- rewrite Et, Hsz. intro E.
             apply Z2Nat.inj in E; [|apply Z.mod_pos_bound; lia|apply Z.mod_pos_bound; lia].
             revert E. apply mod_neq. clear - Hi Ne Es. lia.
  Qed.

  Lemma step_inv r l o : RInv r l ->
    exists r' l', ring_step Size r o = Some r' /\ dq_step (Z.to_nat Size) o l l' /\ RInv r' l'.
  Proof.
    intro HI. destruct (push_idx r l HI) as (E1 & Ht2 & Hh2 & Et & _ & _).
    pose proof HI as (HL & Ht & Hh & Hs & Hl & Hm & Hn).
    destruct o as [x| |]; cbn [ring_step dq_step].
    - assert (Ep : push Size r x = match wr (r_buf (push_raw Size r)) (r_tail (push_raw Size r)) x with
          | Some b => Some (mkRing b (r_head (push_raw Size r)) (r_tail (push_raw Size r)) (r_size (push_raw Size r)))
          | None => None end) by reflexivity.
      rewrite Ep. unfold wr. destruct (Z.ltb_spec (r_tail (push_raw Size r)) 0); [lia|].
      rewrite E1. destruct (upd_some (r_buf r) (Z.to_nat (r_tail (push_raw Size r))) x) as [b Eb]; [lia|].
      rewrite Eb. eexists _, _. split; [reflexivity|]. split; [reflexivity|].
      apply push_buf_inv; auto.
      + rewrite (upd_length _ _ _ _ Eb). exact HL.
      + eapply upd_nth_eq; eauto.
      + intros j Hj. eapply upd_nth_neq; eauto.
    - destruct (nth_error_lt_some (r_buf r) (Z.to_nat (r_tail (push_raw Size r)))) as [x Ex]; [lia|].
      eexists _, _. split; [reflexivity|]. split; [exists x; reflexivity|].
      pose proof (push_buf_inv r l (r_buf r) x HI HL Ex (fun j _ => eq_refl)) as H.
      cbn zeta in H. rewrite <- E1 in H at 1. destruct (push_raw Size r). exact H.
    - eexists _, _. split; [reflexivity|]. split; [reflexivity|].
      unfold pop, decTail. destruct (Z.eqb_spec (r_size r) 0) as [E0|E0].
      + destruct l; [exact HI|cbn in Hl; lia].
      + assert (Hlen : length (removelast l) = (length l - 1)%nat).
        { destruct (exists_last (l:=l)) as (l0 & a & El).
          { intro; subst; cbn in Hl; lia. }
          subst l. rewrite removelast_last, app_length. cbn. lia. }
        unfold RInv; cbn [r_buf r_head r_tail r_size].
        rewrite Hlen.
        split; [lia|]. split; [destruct (Z.ltb_spec (r_tail r - 1) 0); lia|].
        split; [lia|]. split; [lia|]. split; [lia|]. split.
        * apply mod_eq_sub. apply mod_zero_sub in Hm.
          destruct (Z.ltb_spec (r_tail r - 1) 0).
          -- replace (Size - 1) with (r_tail r - 1 + 1 * Size) by lia.
             rewrite Z.mod_add by lia.
             replace (r_head r + (r_size r - 1) - 1) with ((r_head r + r_size r - 1) - 1) by lia.
             rewrite Zminus_mod, Hm, <- Zminus_mod. reflexivity.
          -- replace (r_head r + (r_size r - 1) - 1) with ((r_head r + r_size r - 1) - 1) by lia.
             rewrite Zminus_mod, Hm, <- Zminus_mod. reflexivity.
        * intros i Hi. rewrite Hn by lia.
          destruct (exists_last (l:=l)) as (l0 & a & El).
          { intro; subst; cbn in Hl; lia. }
          subst l. rewrite removelast_last. rewrite app_length in Hl. cbn in Hl.
          apply nth_error_app1. lia.
  Qed.

  Lemma run_inv os : forall r l, RInv r l ->
    exists r' l', ring_run Size r os = Some r' /\ dq_run (Z.to_nat Size) os l l' /\ RInv r' l'.
  Proof.
    induction os as [|o os IH]; intros r l HI.
    - exists r, l. repeat split; try apply HI. constructor.
    - destruct (step_inv r l o HI) as (r1 & l1 & E1 & D1 & I1).
      destruct (IH r1 l1 I1) as (r2 & l2 & E2 & D2 & I2).
      exists r2, l2. cbn. rewrite E1. split; [exact E2|]. split; [|exact I2].
      econstructor; eauto.
  Qed.

  Lemma inv_get r l i : RInv r l -> 0 <= i < r_size r -> get Size r i = nth_error l (Z.to_nat i).
  Proof.
    intros (HL & Ht & Hh & Hs & Hl & Hm & Hn) Hi. unfold get, rd.
    rewrite Z.rem_mod_nonneg by lia.
    pose proof (Z.mod_pos_bound (i + r_head r) Size ltac:(lia)).
    destruct (Z.ltb_spec ((i + r_head r) mod Size) 0); [lia|].
    rewrite Z.add_comm. apply Hn; lia.
  Qed.

  Lemma inv_back r l : RInv r l -> l <> [] -> back r = nth_error l (length l - 1).
  Proof.
    intros (HL & Ht & Hh & Hs & Hl & Hm & Hn) Hne. unfold back, rd.
    destruct (Z.ltb_spec (r_tail r) 0); [lia|].
    assert (0 < length l)%nat by (destruct l; [congruence|cbn; lia]).
    rewrite <- (mod_small_eq (r_head r + r_size r - 1) (r_tail r)) by (lia || exact Hm).
    replace (r_head r + r_size r - 1) with (r_head r + (r_size r - 1)) by lia.
    rewrite Hn by lia. f_equal. lia.
  Qed.

  Lemma ring_refines (b : list T) os :
    Z.of_nat (length b) = Size ->
    exists r l, ring_run Size (ring_init b) os = Some r /\
      dq_run (Z.to_nat Size) os [] l /\
      ring_size r = Z.of_nat (length l) /\
      (forall i, 0 <= i < ring_size r -> get Size r i = nth_error l (Z.to_nat i)) /\
      (l <> [] -> back r = nth_error l (length l - 1)).
  Proof.
    intro Hb. destruct (run_inv os _ _ (init_inv b Hb)) as (r & l & E & D & I).
    exists r, l. split; [exact E|]. split; [exact D|].
    split; [unfold ring_size; apply I|]. split.
    - intros i Hi. apply inv_get; auto.
    - intro Hne. apply inv_back; auto.
  Qed.
End P.

Section Bounds.
  Context {T : Type}.
  Variable Size : Z.
  Definition BInv (r : ring T) :=
    0 <= r_head r <= Size /\ 0 <= r_tail r <= Size /\ 0 <= r_size r <= Size.
  (* kept simple: needs Size >= 2 so that the initial head is in range *)
  Lemma step_binv (r : ring T) o r' : 2 <= Size -> 0 <= r_head r < Size -> 0 <= r_tail r < Size -> 0 <= r_size r <= Size ->
    ring_step Size r o = Some r' ->
    0 <= r_head r' < Size /\ 0 <= r_tail r' < Size /\ 0 <= r_size r' <= Size.
  Proof.
    intros HS Hh Ht Hs.
    assert (Hraw : 0 <= r_head (push_raw Size r) < Size /\ 0 <= r_tail (push_raw Size r) < Size
                   /\ 0 <= r_size (push_raw Size r) <= Size).
    { unfold push_raw, incTail, incHead; cbn [r_buf r_head r_tail r_size].
      destruct (Z.ltb_spec Size (r_size r + 1)); cbn [r_buf r_head r_tail r_size];
      [destruct (Z.eqb_spec (r_size r + 1) 0); cbn [r_buf r_head r_tail r_size]|];
      destruct (Z.eqb_spec (r_tail r + 1) Size); try destruct (Z.eqb_spec (r_head r + 1) Size); lia. }
    destruct o as [x| |]; cbn [ring_step]; intro E.
    - unfold push in E. fold (push_raw Size r) in E.
      destruct (wr (r_buf (push_raw Size r)) (r_tail (push_raw Size r)) x); [|discriminate].
      injection E as <-. exact Hraw.
    - injection E as <-. exact Hraw.
    - injection E as <-. unfold pop, decTail.
      destruct (Z.eqb_spec (r_size r) 0); cbn [r_buf r_head r_tail r_size]; [lia|].
      destruct (Z.ltb_spec (r_tail r - 1) 0); lia.
  Qed.

  Lemma run_binv os : 2 <= Size -> forall (r r' : ring T), 0 <= r_head r < Size -> 0 <= r_tail r < Size -> 0 <= r_size r <= Size ->
    ring_run Size r os = Some r' ->
    0 <= r_head r' < Size /\ 0 <= r_tail r' < Size /\ 0 <= r_size r' <= Size.
  Proof.
    intro HS. induction os as [|o os IH]; intros r r' H1 H2 H3 E; cbn in E.
    - injection E as <-. auto.
    - destruct (ring_step Size r o) as [r1|] eqn:E1; [|discriminate].
      destruct (step_binv r o r1 HS H1 H2 H3 E1) as (A & B & C). eapply IH; eauto.
  Qed.

  Lemma ring_no_overflow (b : list T) os r : 2 <= Size -> ring_run Size (ring_init b) os = Some r ->
    0 <= r_head r < Size /\ 0 <= r_tail r < Size /\ 0 <= r_size r <= Size.
  Proof. intros HS E. eapply run_binv; eauto; cbn; lia. Qed.
End Bounds.

Lemma size1_head_grows (n : nat) : forall h x0, 1 <= h ->
  exists r, ring_run 1 (mkRing [x0] h 0 1) (repeat (OPush tt) n) = Some r /\
     r_head r = h + Z.of_nat n.
Proof.
  induction n as [|n IH]; intros h x0 Hh; cbn [repeat ring_run].
  - eexists; split; [reflexivity|]. cbn. lia.
  - replace (ring_step 1 (mkRing [x0] h 0 1) (OPush tt)) with (Some (mkRing [tt] (h+1) 0 1)).
    + destruct (IH (h+1) tt) as (r & E & H); [lia|]. exists r. split; [exact E|lia].
    + cbn. unfold push, incTail, incHead. cbn.
      destruct (Z.eqb_spec (h + 1) 1); [lia|]. reflexivity.
Qed.

Lemma ring_size1_unbounded : forall B : Z, exists os (r : ring unit),
  ring_run 1 (ring_init [tt]) os = Some r /\ B < r_head r.
Proof.
  intro B. exists (OPush tt :: repeat (OPush tt) (Z.to_nat B)).
  destruct (size1_head_grows (Z.to_nat B) 1 tt) as (r & E & H); [lia|].
  exists r. split; [exact E|]. lia.
Qed.
