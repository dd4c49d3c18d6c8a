(* Ownership invariant of zs::function along tame operation sequences. *)
From Verif Require Import Prelude FnModel FnSpec.

Fixpoint ids (t : target) : list nat :=
  match t with Leaf i _ => [i] | Wrap i None => [i] | Wrap i (Some u) => i :: ids u end.
Fixpoint obs (t : target) : value :=
  match t with Leaf _ c => Some c | Wrap _ None => None | Wrap _ (Some u) => obs u end.
Definition owned (f : fn) : list nat :=
  if engaged f then match bits f with Some t => ids t | None => [] end else [].

Fixpoint target_ind' (P : target -> Prop) (HL : forall i c, P (Leaf i c)) (HN : forall i, P (Wrap i None))
  (HS : forall i u, P u -> P (Wrap i (Some u))) (t : target) : P t :=
  match t with
  | Leaf i c => HL i c
  | Wrap i None => HN i
  | Wrap i (Some u) => HS i u (target_ind' P HL HN HS u)
  end.

Lemma alive_app : forall a b al, alive_after (a ++ b) al =
  match alive_after a al with Some al' => alive_after b al' | None => None end.
Proof.
  induction a as [|e a IH]; intros b al; [reflexivity|].
  cbn [app alive_after]. destruct e; try (destruct (in_dec Nat.eq_dec id al)); auto.
Qed.

Lemma remove_perm : forall i l r, NoDup l -> Permutation l (i :: r) -> Permutation (remove Nat.eq_dec i l) r.
Proof.
  intros i l r N P. apply NoDup_Permutation.
  - clear P. induction N; cbn; [constructor|]. destruct (Nat.eq_dec i x); [assumption|].
    constructor; [|assumption]. intros H0. apply in_remove in H0. tauto.
  - apply (Permutation_NoDup P) in N. inversion N; assumption.
  - intros x. assert (N' : NoDup (i :: r)) by (eapply Permutation_NoDup; eauto). inversion N' as [|? ? Ni Nr]; subst.
    split.
    + intros H. apply in_remove in H. destruct H as [H Hn]. apply (Permutation_in _ P) in H. destruct H; [congruence|assumption].
    + intros H. apply in_in_remove; [intros ->; contradiction|].
      apply (Permutation_in _ (Permutation_sym P)). right; assumption.
Qed.

Lemma destroy_ok : forall t al rest, NoDup al -> Permutation al (ids t ++ rest) ->
  exists al', alive_after (destroy t) al = Some al' /\ Permutation al' rest /\ NoDup al'.
Proof.
  induction t as [i c|i|i u IH] using target_ind'; intros al rest N P; cbn [destroy ids app] in *.
  - cbn [alive_after]. destruct (in_dec Nat.eq_dec i al) as [I|I].
    + eexists. split; [reflexivity|]. pose proof (remove_perm i al rest N P) as Q. split; [exact Q|].
      assert (N' : NoDup (i :: rest)) by (eapply Permutation_NoDup; eauto).
      inversion N'; subst. eapply Permutation_NoDup; [apply Permutation_sym; exact Q|assumption].
    + exfalso. apply I. apply (Permutation_in _ (Permutation_sym P)). left; reflexivity.
  - cbn [alive_after]. destruct (in_dec Nat.eq_dec i al) as [I|I].
    + eexists. split; [reflexivity|]. pose proof (remove_perm i al rest N P) as Q. split; [exact Q|].
      assert (N' : NoDup (i :: rest)) by (eapply Permutation_NoDup; eauto).
      inversion N'; subst. eapply Permutation_NoDup; [apply Permutation_sym; exact Q|assumption].
    + exfalso. apply I. apply (Permutation_in _ (Permutation_sym P)). left; reflexivity.
  - destruct (IH al (i :: rest) N) as (al1 & E1 & P1 & N1).
    { eapply Permutation_trans; [exact P|]. apply Permutation_middle. }
    rewrite alive_app, E1. cbn [alive_after]. destruct (in_dec Nat.eq_dec i al1) as [I|I].
    + eexists. split; [reflexivity|]. pose proof (remove_perm i al1 rest N1 P1) as Q. split; [exact Q|].
      assert (N' : NoDup (i :: rest)) by (eapply Permutation_NoDup; eauto).
      inversion N'; subst. eapply Permutation_NoDup; [apply Permutation_sym; exact Q|assumption].
    + exfalso. apply I. apply (Permutation_in _ (Permutation_sym P1)). left; reflexivity.
Qed.

Lemma drop_ok : forall f al rest, NoDup al -> Permutation al (owned f ++ rest) ->
  exists al', alive_after (drop f) al = Some al' /\ Permutation al' rest /\ NoDup al'.
Proof.
  intros f al rest N P. unfold drop, owned in *. destruct (engaged f); [destruct (bits f)|].
  - apply destroy_ok; assumption.
  - exists al. repeat split; auto.
  - exists al. repeat split; auto.
Qed.

Lemma clone_ok : forall t al n c, NoDup al -> (forall i, In i al -> i < n) -> incl (ids t) al -> obs t = Some c ->
  exists al', alive_after (fst (clone t n)) al = Some al' /\
  match snd (clone t n) with
  | Some (t', n') => copyable c = true /\ n < n' /\ obs t' = Some c /\ Permutation al' (ids t' ++ al) /\ NoDup al' /\
                     (forall i, In i al' -> i < n')
  | None => copyable c = false /\ al' = al
  end.
Proof.
  induction t as [i c0|i|i u IH] using target_ind'; intros al n c N B I O; cbn [clone ids obs] in *.
  - injection O as ->. destruct (copyable c) eqn:C; cbn [fst snd alive_after].
    + destruct (in_dec Nat.eq_dec i al) as [Hi|Hi]; [|exfalso; apply Hi, I; left; reflexivity].
      destruct (in_dec Nat.eq_dec n al) as [Hn|Hn]; [specialize (B _ Hn); lia|].
      eexists. split; [reflexivity|]. cbn [ids app obs]. repeat split; auto.
      * constructor; assumption.
      * intros j [<-|Hj]; [lia|]. specialize (B _ Hj). lia.
    + exists al. repeat split; auto.
  - discriminate.
  - destruct (IH al n c N B) as (al1 & E1 & H1); [intros j Hj; apply I; right; exact Hj|exact O|].
    destruct (clone u n) as [ev [[u' n']|]]; cbn [fst snd] in *.
    + destruct H1 as (C & L & O' & P & N1 & B1).
      cbn [alive_after]. destruct (in_dec Nat.eq_dec i al) as [Hi|Hi]; [|exfalso; apply Hi, I; left; reflexivity].
      rewrite alive_app, E1. cbn [alive_after].
      destruct (in_dec Nat.eq_dec n' al1) as [Hn|Hn]; [specialize (B1 _ Hn); lia|].
      eexists. split; [reflexivity|]. cbn [ids obs app]. repeat split; auto.
      * constructor; assumption.
      * intros j [<-|Hj]; [lia|]. specialize (B1 _ Hj). lia.
    + destruct H1 as [C ->].
      cbn [alive_after]. destruct (in_dec Nat.eq_dec i al) as [Hi|Hi]; [|exfalso; apply Hi, I; left; reflexivity].
      exists al. auto.
Qed.

Lemma invoke_ok : forall t al, incl (ids t) al ->
  alive_after (fst (invoke t)) al = Some al /\ snd (invoke t) = match obs t with Some c => Some (tag c) | None => None end.
Proof.
  induction t as [i c0|i|i u IH] using target_ind'; intros al I; cbn [invoke ids obs] in *.
  - cbn. destruct (in_dec Nat.eq_dec i al) as [Hi|Hi]; [auto|exfalso; apply Hi, I; left; reflexivity].
  - cbn. destruct (in_dec Nat.eq_dec i al) as [Hi|Hi]; [auto|exfalso; apply Hi, I; left; reflexivity].
  - destruct (IH al) as [E1 E2]; [intros j Hj; apply I; right; exact Hj|].
    destruct (invoke u) as [ev r]. cbn [fst snd alive_after] in *.
    destruct (in_dec Nat.eq_dec i al) as [Hi|Hi]; [auto|exfalso; apply Hi, I; left; reflexivity].
Qed.

(* lists with one entry replaced *)
Lemma setn_nth_eq : forall A (l : list A) d x y, nth_error l d = Some y -> nth_error (setn l d x) d = Some x.
Proof. induction l; intros [|d] x y H; cbn in *; try discriminate; auto. eapply IHl; eauto. Qed.
Lemma setn_nth_neq : forall A (l : list A) d e x, d <> e -> nth_error (setn l d x) e = nth_error l e.
Proof. induction l; intros [|d] [|e] x H; cbn; auto; try lia. Qed.
Lemma setn_F2 : forall A B (P : A -> B -> Prop) l m d x y, Forall2 P l m -> P x y -> Forall2 P (setn l d x) (setn m d y).
Proof. intros A B P l m d x y H Pxy. revert d. induction H; intros [|d]; cbn; constructor; auto. Qed.
Lemma setn_F2l : forall A B (P : A -> B -> Prop) l m d x y, Forall2 P l m -> nth_error m d = Some y -> P x y -> Forall2 P (setn l d x) m.
Proof.
  intros A B P l m d x y H. revert d. induction H; intros [|d] N Pxy; cbn in *; try discriminate; constructor; auto.
  congruence.
Qed.
Lemma F2_nth : forall A B (P : A -> B -> Prop) l m d x, Forall2 P l m -> nth_error l d = Some x -> exists y, nth_error m d = Some y /\ P x y.
Proof. intros A B P l m d x H. revert d. induction H; intros [|d] N; cbn in *; try discriminate; eauto. injection N as <-. eauto. Qed.
Lemma F2_nth_r : forall A B (P : A -> B -> Prop) l m d y, Forall2 P l m -> nth_error m d = Some y -> exists x, nth_error l d = Some x /\ P x y.
Proof. intros A B P l m d y H. revert d. induction H; intros [|d] N; cbn in *; try discriminate; eauto. injection N as <-. eauto. Qed.

Lemma split_at : forall (l : list fn) d f, nth_error l d = Some f -> exists rest,
  Permutation (flat_map owned l) (owned f ++ rest) /\
  forall f', Permutation (flat_map owned (setn l d f')) (owned f' ++ rest).
Proof.
  induction l as [|g l IH]; intros [|d] f H; cbn in H; try discriminate.
  - injection H as <-. exists (flat_map owned l). split; [reflexivity|]. intros f'. reflexivity.
  - destruct (IH d f H) as (rest & P & Q). exists (owned g ++ rest). split.
    + cbn [flat_map]. rewrite P. rewrite !app_assoc. apply Permutation_app_tail. apply Permutation_app_comm.
    + intros f'. cbn [setn flat_map]. rewrite Q. rewrite !app_assoc. apply Permutation_app_tail. apply Permutation_app_comm.
Qed.

Definition holds (f : fn) (v : value) : Prop :=
  (engaged f = false /\ v = None) \/
  (engaged f = true /\ exists t c, bits f = Some t /\ obs t = Some c /\ v = Some c).

Record inv (st : state) (vs : list value) : Prop := {
  i_vals : Forall2 holds (slots st) vs;
  i_alive : exists al, alive_after (trace st) [] = Some al /\ Permutation al (flat_map owned (slots st)) /\
                       NoDup al /\ forall i, In i al -> i < fresh st }.

Lemma init_inv : forall n, inv (init n) (repeat None n).
Proof.
  intros n. constructor; cbn [init slots trace fresh].
  - induction n; cbn; constructor; auto. left; auto.
  - exists []. repeat split.
    + induction n; cbn; auto.
    + constructor.
    + intros i [].
Qed.

Lemma holds_none : forall f, holds f None -> engaged f = false.
Proof. intros f [[E _]|(_ & t & c & _ & _ & H)]; [exact E|discriminate]. Qed.
Lemma holds_some : forall f c, holds f (Some c) -> engaged f = true /\ exists t, bits f = Some t /\ obs t = Some c.
Proof. intros f c [[_ E]|(E & t & c' & B & O & H)]; [discriminate|]. injection H as ->. eauto. Qed.
Lemma owned_off : forall f, engaged f = false -> owned f = [].
Proof. intros f H. unfold owned. rewrite H. reflexivity. Qed.
Lemma owned_on : forall f t, engaged f = true -> bits f = Some t -> owned f = ids t.
Proof. intros f t H B. unfold owned. rewrite H, B. reflexivity. Qed.

Lemma step_inv : forall st vs o, inv st vs -> tame vs o -> forall vs' out, expect vs o = Some (vs', out) ->
  exists st', step st o = Some (st', out) /\ inv st' vs'.
Proof.
  intros st vs o [HV (al & EA & PA & NA & BA)] T vs' out E.
  destruct o as [d c th|d s|d s|d s|d|d]; cbn [expect step tame] in *; unfold get.
  - (* SetCallable *)
    destruct (nth_error vs d) as [v|] eqn:Nv; [|discriminate].
    destruct (F2_nth_r _ _ _ _ _ _ _ HV Nv) as (f & Nf & Hf). rewrite Nf.
    destruct (split_at _ _ _ Nf) as (rest & P & Q).
    destruct (drop_ok f al rest NA) as (al1 & E1 & P1 & N1); [eapply Permutation_trans; eauto|].
    assert (B1 : forall i, In i al1 -> i < fresh st).
    { intros i Hi. apply BA. apply (Permutation_in _ (Permutation_sym (Permutation_trans PA P))).
      apply in_or_app. right. apply (Permutation_in _ P1). exact Hi. }
    destruct th.
    + injection E as <- <-. eexists. split; [reflexivity|].
      specialize (T eq_refl). injection T as ->. pose proof (holds_none _ Hf) as Ef.
      constructor; cbn [put slots trace fresh].
      * eapply setn_F2l; eauto.
      * exists al1. rewrite alive_app, EA. repeat split; auto.
        eapply Permutation_trans; [exact P1|]. apply Permutation_sym. rewrite (Q f), (owned_off f Ef). reflexivity.
    + injection E as <- <-. eexists. split; [reflexivity|]. constructor; cbn [put slots trace fresh].
      * apply setn_F2; auto. right. split; [reflexivity|]. exists (Leaf (fresh st) c), c. auto.
      * exists (fresh st :: al1). rewrite alive_app, EA, alive_app, E1. cbn [alive_after].
        destruct (in_dec Nat.eq_dec (fresh st) al1) as [I|I]; [specialize (B1 _ I); lia|].
        repeat split; auto.
        -- rewrite Q. cbn. apply perm_skip. exact P1.
        -- constructor; assumption.
        -- intros i [<-|Hi]; [lia|]. specialize (B1 _ Hi). lia.
  - (* CopyAssign *)
    destruct (nth_error vs d) as [v|] eqn:Nv; [|discriminate].
    destruct (nth_error vs s) as [w|] eqn:Nw; [|discriminate].
    destruct (F2_nth_r _ _ _ _ _ _ _ HV Nv) as (f & Nf & Hf). rewrite Nf.
    destruct (F2_nth_r _ _ _ _ _ _ _ HV Nw) as (g & Ng & Hg). rewrite Ng.
    destruct (Nat.eqb_spec d s) as [Eq|Ne].
    { injection E as <- <-. eexists. split; [reflexivity|]. constructor; auto. exists al; auto. }
    destruct T as [T|T]; [congruence|]. injection T as ->. pose proof (holds_none _ Hf) as Ef.
    destruct (split_at _ _ _ Nf) as (rest & P & Q). rewrite (owned_off f Ef) in P. cbn [app] in P.
    destruct w as [c|].
    + destruct (holds_some _ _ Hg) as (Eg & t & Bt & Ot). rewrite Eg, Bt.
      destruct (clone_ok t al (fresh st) c NA BA) as (al1 & E1 & H1); [|exact Ot|].
      { intros i Hi. apply (Permutation_in _ (Permutation_sym PA)). apply in_flat_map. exists g.
        split; [eapply nth_error_In; eauto|]. rewrite (owned_on _ _ Eg Bt). exact Hi. }
      destruct (clone t (fresh st)) as [ev [[t' n']|]]; cbn [fst snd] in *.
      * destruct H1 as (C & L & O' & P1 & N1 & B1). rewrite C in E. injection E as <- <-.
        eexists. split; [reflexivity|]. constructor; cbn [put slots trace fresh].
        -- apply setn_F2; auto. right. split; [reflexivity|]. exists t', c. auto.
        -- exists al1. rewrite alive_app, EA. repeat split; auto.
           rewrite P1. rewrite (Q (mkFn (Some t') true)). cbn [owned engaged bits]. apply Permutation_app_head.
           eapply Permutation_trans; eauto.
      * destruct H1 as [C ->]. rewrite C in E. injection E as <- <-.
        eexists. split; [reflexivity|]. constructor; cbn [put slots trace fresh].
        -- eapply setn_F2l; eauto.
        -- exists al. rewrite alive_app, EA. repeat split; auto.
           rewrite (Q f), (owned_off f Ef). cbn. eapply Permutation_trans; eauto.
    + pose proof (holds_none _ Hg) as Eg. rewrite Eg. injection E as <- <-.
      eexists. split; [reflexivity|]. constructor; cbn [put slots trace fresh].
      * apply setn_F2; auto. left; auto.
      * exists al. rewrite app_nil_r. repeat split; auto.
        rewrite (Q (mkFn (bits f) false)). cbn. eapply Permutation_trans; eauto.
  - (* LvalueAssign *)
    destruct T as (Ne & c & Nw & Cc).
    destruct (nth_error vs d) as [v|] eqn:Nv; [|discriminate].
    rewrite Nw in E.
    destruct (F2_nth_r _ _ _ _ _ _ _ HV Nv) as (f & Nf & Hf). rewrite Nf.
    destruct (F2_nth_r _ _ _ _ _ _ _ HV Nw) as (g & Ng & Hg). rewrite Ng.
    destruct (Nat.eqb_spec d s) as [Eq|_]; [congruence|]. rewrite Cc in E. injection E as <- <-.
    destruct (split_at _ _ _ Nf) as (rest & P & Q).
    destruct (drop_ok f al rest NA) as (al1 & E1 & P1 & N1); [eapply Permutation_trans; eauto|].
    assert (B1 : forall i, In i al1 -> i < fresh st).
    { intros i Hi. apply BA. apply (Permutation_in _ (Permutation_sym (Permutation_trans PA P))).
      apply in_or_app. right. apply (Permutation_in _ P1). exact Hi. }
    destruct (holds_some _ _ Hg) as (Eg & t & Bt & Ot). rewrite Eg, Bt.
    destruct (clone_ok t al1 (fresh st) c N1 B1) as (al2 & E2 & H2); [|exact Ot|].
    { intros i Hi. apply (Permutation_in _ (Permutation_sym P1)).
      pose proof (Q empty_fn) as Q0. cbn [owned empty_fn engaged app] in Q0. apply (Permutation_in _ Q0).
      apply in_flat_map. exists g. split.
      - eapply (nth_error_In _ s). rewrite setn_nth_neq by congruence. exact Ng.
      - rewrite (owned_on _ _ Eg Bt). exact Hi. }
    destruct (clone t (fresh st)) as [ev [[t' n']|]]; cbn [fst snd] in *; [|destruct H2; congruence].
    destruct H2 as (_ & L & O' & P2 & N2 & B2).
    eexists. split; [reflexivity|]. constructor; cbn [put slots trace fresh].
    + apply setn_F2; auto. right. split; [reflexivity|]. exists (Wrap n' (Some t')), c. auto.
    + exists (n' :: al2). rewrite alive_app, EA, alive_app, E1, alive_app, E2. cbn [alive_after].
      destruct (in_dec Nat.eq_dec n' al2) as [I|I]; [specialize (B2 _ I); lia|].
      repeat split; auto.
      * rewrite Q. cbn [owned engaged bits ids app]. apply perm_skip. rewrite P2. apply Permutation_app_head. exact P1.
      * constructor; assumption.
      * intros i [<-|Hi]; [lia|]. specialize (B2 _ Hi). lia.
  - (* MoveAssign *)
    destruct (nth_error vs d) as [v|] eqn:Nv; [|discriminate].
    destruct (nth_error vs s) as [w|] eqn:Nw; [|discriminate].
    destruct (F2_nth_r _ _ _ _ _ _ _ HV Nv) as (f & Nf & Hf). rewrite Nf.
    destruct (F2_nth_r _ _ _ _ _ _ _ HV Nw) as (g & Ng & Hg). rewrite Ng.
    destruct (Nat.eqb_spec d s) as [Eq|Ne].
    { injection E as <- <-. eexists. split; [reflexivity|]. constructor; auto. exists al; auto. }
    destruct T as [T|[T SR]]; [congruence|]. injection T as ->. pose proof (holds_none _ Hf) as Ef.
    injection E as <- <-. eexists. split; [reflexivity|].
    assert (EV : match engaged g, bits g with
                 | true, Some (Leaf id c) => if selfref c then [Memcpy id] else []
                 | _, _ => [] end = []).
    { destruct w as [c|].
      - destruct (holds_some _ _ Hg) as (Eg & t & Bt & Ot). rewrite Eg, Bt. destruct t as [i c'|]; [|reflexivity].
        injection Ot as ->. rewrite (SR c eq_refl). reflexivity.
      - rewrite (holds_none _ Hg). reflexivity. }
    rewrite EV.
    destruct (split_at _ _ _ Nf) as (rest & P & Q). rewrite (owned_off f Ef) in P. cbn [app] in P.
    assert (Ns : nth_error (setn (slots st) d g) s = Some g) by (rewrite setn_nth_neq by congruence; exact Ng).
    destruct (split_at _ _ _ Ns) as (rest2 & P2 & Q2).
    constructor; cbn [put slots trace fresh].
    + apply setn_F2; [|left; auto]. apply setn_F2; auto.
    + exists al. rewrite !app_nil_r. repeat split; auto.
      rewrite (Q2 (mkFn (bits g) false)). cbn [owned engaged app].
      assert (R : Permutation rest rest2).
      { apply (Permutation_app_inv_l (owned g)). rewrite <- (Q g). exact P2. }
      rewrite <- R, <- P. exact PA.
  - (* Call *)
    destruct (nth_error vs d) as [v|] eqn:Nv; [|discriminate]. injection E as <- <-.
    destruct (F2_nth_r _ _ _ _ _ _ _ HV Nv) as (f & Nf & Hf). rewrite Nf.
    destruct v as [c|].
    + destruct (holds_some _ _ Hf) as (Eg & t & Bt & Ot). rewrite Eg, Bt.
      destruct (invoke_ok t al) as [E1 E2].
      { intros i Hi. apply (Permutation_in _ (Permutation_sym PA)). apply in_flat_map. exists f.
        split; [eapply nth_error_In; eauto|]. rewrite (owned_on _ _ Eg Bt). exact Hi. }
      destruct (invoke t) as [ev r]. cbn [fst snd] in *. rewrite Ot in E2. subst r.
      eexists. split; [reflexivity|]. constructor; cbn [put slots trace fresh].
      * eapply setn_F2l; eauto.
      * exists al. rewrite alive_app, EA. repeat split; auto.
        destruct (split_at _ _ _ Nf) as (rest & P & Q). rewrite (Q f), <- P. exact PA.
    + rewrite (holds_none _ Hf). eexists. split; [reflexivity|]. constructor; auto. exists al; auto.
  - (* Reset *)
    destruct (nth_error vs d) as [v|] eqn:Nv; [|discriminate]. injection E as <- <-.
    destruct (F2_nth_r _ _ _ _ _ _ _ HV Nv) as (f & Nf & Hf). rewrite Nf.
    destruct (split_at _ _ _ Nf) as (rest & P & Q).
    destruct (drop_ok f al rest NA) as (al1 & E1 & P1 & N1); [eapply Permutation_trans; eauto|].
    eexists. split; [reflexivity|]. constructor; cbn [put slots trace fresh].
    + apply setn_F2; auto. left; auto.
    + exists al1. rewrite alive_app, EA. repeat split; auto.
      * rewrite (Q empty_fn). cbn. exact P1.
      * intros i Hi. apply BA. apply (Permutation_in _ (Permutation_sym (Permutation_trans PA P))).
        apply in_or_app. right. apply (Permutation_in _ P1). exact Hi.
Qed.

Lemma run_inv : forall ops st vs, inv st vs -> all_tame vs ops -> forall vs' outs, expect_all vs ops = Some (vs', outs) ->
  exists st', run st ops = Some (st', outs) /\ inv st' vs'.
Proof.
  induction ops as [|o os IH]; intros st vs I T vs' outs E; cbn [run expect_all all_tame] in *.
  - injection E as <- <-. eauto.
  - destruct T as [T1 T2]. destruct (expect vs o) as [[vs1 out]|] eqn:E1; [|discriminate].
    destruct (step_inv _ _ _ I T1 _ _ E1) as (st1 & S1 & I1). rewrite S1.
    destruct (expect_all vs1 os) as [[vs2 outs2]|] eqn:E2; [|discriminate]. injection E as <- <-.
    destruct (IH _ _ I1 T2 _ _ E2) as (st2 & S2 & I2). rewrite S2. eauto.
Qed.

Lemma holds_truthy : forall f v, holds f v -> truthy f = match v with Some _ => true | None => false end.
Proof. intros f v [[E ->]|(E & t & c & _ & _ & ->)]; exact E. Qed.
