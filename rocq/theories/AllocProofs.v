From Verif Require Import Prelude AllocModel AllocSpec.
Local Open Scope Z_scope.

(** the client: it remembers the live blocks (most recent first); a failed call leaves that list as it was *)
Definition client (sl : stk * list block) (c : call) : stk * list block :=
  let (s, live) := sl in
  match c with
  | Alloc n => match stk_allocate s n with (s', Ret p) => (s', (p, n) :: live) | (s', BadAlloc) => (s', live) end
  | FreeTop => match live with
               | [] => (s, [])
               | (p, n) :: rest => match stk_deallocate s p with (s', Ret _) => (s', rest) | (s', BadAlloc) => (s', live) end
               end
  end.
Definition run_client (s : stk) (cs : list call) : stk * list block := fold_left client cs (s, []).
Definition nonneg_call (c : call) : Prop := match c with Alloc n => 0 <= n | FreeTop => True end.
Definition pos_call (c : call) : Prop := match c with Alloc n => 0 < n | FreeTop => True end.

Lemma align_up_spec h a : 0 < a -> (a | align_up h a) /\ h <= align_up h a < h + a.
Proof.
  intro Ha. unfold align_up. pose proof (Z.mod_pos_bound (h + a - 1) a Ha). split; [|lia].
  exists ((h + a - 1) / a). pose proof (Z.div_mod (h + a - 1) a ltac:(lia)). lia.
Qed.
Lemma align_up_id h a : 0 < a -> (a | h) -> align_up h a = h.
Proof.
  intros Ha Hd. destruct (align_up_spec h a Ha) as [[q1 E1] B]. destruct Hd as [q2 E2].
  assert (q1 = q2) by nia. subst. lia.
Qed.

(** live blocks form a chain below the head *)
Fixpoint chain (lo align : Z) (live : list block) (top : Z) : Prop :=
  match live with
  | [] => lo <= top
  | (p, n) :: rest => (align | p) /\ 0 <= n /\ p + n <= top /\ chain lo align rest p
  end.
Definition sinv (base total align : Z) (sl : stk * list block) : Prop :=
  let (s, live) := sl in
  sdata s = base /\ stail s = base + total /\ salign s = align /\ chain base align live (shead s) /\
  (forall p n rest, live = (p, n) :: rest -> p + n <= base + total).

Lemma chain_mono lo al live t t' : chain lo al live t -> t <= t' -> chain lo al live t'.
Proof. destruct live as [|[p n] r]; cbn; intros; [lia|]. repeat split; try tauto; lia. Qed.

Lemma chain_top_tail lo al live t : chain lo al live t -> lo <= t.
Proof.
  revert t. induction live as [|[p n] r IH]; cbn; intros t H; [exact H|]. destruct H as (_ & H1 & H2 & H3). specialize (IH _ H3). lia.
Qed.
Lemma sinv_step base total align sl c : 0 < align -> nonneg_call c -> sinv base total align sl -> sinv base total align (client sl c).
Proof.
  destruct sl as [s live]. intros Ha Hc (D & T & A & C & B). destruct c as [n|]; cbn [client].
  - unfold stk_allocate. destruct (align_up_spec (shead s) (salign s) ltac:(lia)) as [AD [A1 A2]]. cbn [shead stail]. cbn in Hc.
    destruct (Z.gtb_spec (align_up (shead s) (salign s) + n) (stail s)) as [G|G].
    + refine (conj D (conj T (conj A (conj _ B)))). eapply chain_mono; [exact C|cbn; lia].
    + 
      assert (TT : chain base align ((align_up (shead s) (salign s), n) :: live) (align_up (shead s) (salign s) + n)).
      { cbn. repeat split; [rewrite <- A; assumption|lia|lia|]. eapply chain_mono; [exact C|lia]. }
      refine (conj D (conj T (conj A (conj TT _)))).
      intros p m r E. injection E as <- <- <-. lia.

  - destruct live as [|[p n] rest]; [exact (conj D (conj T (conj A (conj C B))))|]. unfold stk_deallocate.
    destruct (p >=? shead s); [exact (conj D (conj T (conj A (conj C B))))|].
    destruct (p <? sdata s); [exact (conj D (conj T (conj A (conj C B))))|].
    cbn in C. destruct C as (C1 & C2 & C3 & C4). refine (conj D (conj T (conj A (conj C4 _)))).
    intros p' n' r E. subst rest. cbn in C4. specialize (B p n _ eq_refl). lia.
Qed.
Lemma sinv_run base total align cs : 0 < align -> 0 <= total -> Forall nonneg_call cs ->
  sinv base total align (run_client (stk_ctor base total align) cs).
Proof.
  intros Ha Ht F. unfold run_client.
  assert (G : sinv base total align (stk_ctor base total align, [])) by (repeat split; cbn; try lia; discriminate).
  revert G. generalize (stk_ctor base total align, @nil block). induction F as [|c cs Hc F IH]; intros sl G; cbn; [exact G|].
  apply IH. apply sinv_step; assumption.
Qed.

Lemma chain_blocks lo al live t hi : chain lo al live t -> (forall p n r, live = (p, n) :: r -> p + n <= hi) ->
  Forall (blk_ok lo hi al) live /\ Forall (fun b => fst b + snd b <= t) live.
Proof.
  revert t. induction live as [|[p n] r IH]; intros t C B; [split; constructor|].
  cbn in C. destruct C as (C1 & C2 & C3 & C4). specialize (B p n r eq_refl).
  pose proof (chain_top_tail _ _ _ _ C4).
  destruct (IH p C4) as [I1 I2].
  { intros p' n' r' ->. cbn in C4. lia. }
  split; constructor; cbn; auto.
  - repeat split; cbn; auto.
  - eapply Forall_impl; [|exact I2]. cbn. intros. lia.
Qed.
Lemma chain_disjoint lo al live t : chain lo al live t -> all_disjoint live.
Proof.
  revert t. induction live as [|[p n] r IH]; intros t C.
  - intros i j a b H. destruct i; discriminate.
  - cbn in C. destruct C as (C1 & C2 & C3 & C4).
    assert (L : forall k b, nth_error r k = Some b -> fst b + snd b <= p).
    { intros k b E. destruct (chain_blocks lo al r p p C4) as [_ I]; [intros; subst; cbn in C4; lia|].
      rewrite Forall_forall in I. apply I. eapply nth_error_In; eauto. }
    intros [|i] [|j] a b Hi Hj Ne; cbn in Hi, Hj; try lia.
    + injection Hi as <-. right. apply (L j). exact Hj.
    + injection Hj as <-. left. apply (L i). exact Hi.
    + apply (IH _ C4 i j); auto.
Qed.

Lemma stack_blocks_ok base total align cs : 0 < align -> 0 <= total -> Forall nonneg_call cs ->
  let live := snd (run_client (stk_ctor base total align) cs) in
  Forall (blk_ok base (base + total) align) live /\ all_disjoint live.
Proof.
  intros Ha Ht F. pose proof (sinv_run base total align cs Ha Ht F) as I. cbn zeta.
  destruct (run_client (stk_ctor base total align) cs) as [s live]. cbn [snd]. destruct I as (D & T & A & C & B).
  split; [eapply chain_blocks; eauto|eapply chain_disjoint; eauto].
Qed.

(** freeing the most recent block always succeeds (blocks of positive size), and its space can be handed out again *)
Lemma sinv_pos base total align cs : 0 < align -> 0 <= total -> Forall pos_call cs ->
  Forall (fun b => 0 < snd b) (snd (run_client (stk_ctor base total align) cs)).
Proof.
  intros Ha Ht F. unfold run_client.
  assert (G : Forall (fun b => 0 < snd b) (snd (stk_ctor base total align, @nil block))) by constructor.
  revert G. generalize (stk_ctor base total align, @nil block). induction F as [|c cs Hc F IH]; intros sl G; cbn; [exact G|].
  apply IH. destruct sl as [s live]. cbn in G. destruct c as [n|]; cbn [client].
  - destruct (stk_allocate s n) as [s' [p|]]; cbn; [constructor; assumption|assumption].
  - destruct live as [|[p n] rest]; [constructor|]. destruct (stk_deallocate s p) as [s' [q|]]; cbn; [inversion G; assumption|assumption].
Qed.
Lemma stack_free_reuse base total align cs s p n rest bytes :
  0 < align -> 0 <= total -> Forall pos_call cs ->
  run_client (stk_ctor base total align) cs = (s, (p, n) :: rest) -> 0 <= bytes <= n ->
  exists s', stk_deallocate s p = (s', Ret p) /\ exists s'', stk_allocate s' bytes = (s'', Ret p).
Proof.
  intros Ha Ht F E Hb.
  assert (F' : Forall nonneg_call cs). { eapply Forall_impl; [|exact F]. intros [m|]; cbn; lia. }
  pose proof (sinv_run base total align cs Ha Ht F') as I. pose proof (sinv_pos base total align cs Ha Ht F) as P.
  rewrite E in I, P. destruct I as (D & T & A & C & B). cbn in P. inversion P; subst. cbn in C. destruct C as (C1 & C2 & C3 & C4).
  cbn in H1. pose proof (chain_top_tail _ _ _ _ C4). specialize (B p n rest eq_refl).
  unfold stk_deallocate. destruct (Z.geb_spec p (shead s)); [lia|]. destruct (Z.ltb_spec p (sdata s)); [lia|].
  eexists. split; [reflexivity|]. unfold stk_allocate. cbn [shead salign stail sdata].
  rewrite align_up_id by assumption. destruct (Z.gtb_spec (p + bytes) (stail s)); [lia|]. eexists; reflexivity.
Qed.

(** histories in which every allocation succeeds *)
Fixpoint all_succeed (sl : stk * list block) (cs : list call) : Prop :=
  match cs with
  | [] => True
  | c :: r => (match c with Alloc n => exists s' p, stk_allocate (fst sl) n = (s', Ret p) | FreeTop => True end) /\ all_succeed (client sl c) r
  end.
Definition live_end (base : Z) (live : list block) : Z := match live with [] => base | (p, n) :: _ => p + n end.
Fixpoint tight (base align : Z) (live : list block) : Prop :=
  match live with [] => True | (p, n) :: r => 0 <= n /\ p = align_up (live_end base r) align /\ tight base align r end.
Definition finv (base total align : Z) (sl : stk * list block) : Prop :=
  sinv base total align sl /\ tight base align (snd sl) /\
  align_up (shead (fst sl)) align = align_up (live_end base (snd sl)) align.

Lemma align_up_idem h a : 0 < a -> align_up (align_up h a) a = align_up h a.
Proof. intro Ha. apply align_up_id; [exact Ha|]. apply align_up_spec. exact Ha. Qed.
Lemma finv_step base total align sl c : 0 < align -> nonneg_call c ->
  match c with Alloc n => exists s' p, stk_allocate (fst sl) n = (s', Ret p) | FreeTop => True end ->
  finv base total align sl -> finv base total align (client sl c).
Proof.
  intros Ha Hc Hs (I & T & H). split; [apply sinv_step; assumption|].
  destruct sl as [s live]. destruct c as [n|]; cbn [client fst snd] in *.
  - destruct Hs as (s' & p & E). rewrite E. unfold stk_allocate in E. destruct I as (_ & _ & A & _).
    destruct (_ >? _); [discriminate|]. injection E as <- <-. cbn [fst snd shead live_end tight]. rewrite A in *. cbn in Hc. auto.
  - destruct live as [|[p n] rest]; [auto|]. unfold stk_deallocate.
    destruct (p >=? shead s); [auto|]. destruct (p <? sdata s); [auto|]. cbn [fst snd shead live_end tight] in *.
    destruct T as (T1 & -> & T2). split; [exact T2|]. apply align_up_idem. exact Ha.
Qed.
Lemma stack_fit base total align cs bytes s live : 0 < align -> 0 <= total -> Forall nonneg_call cs ->
  all_succeed (stk_ctor base total align, []) cs -> run_client (stk_ctor base total align) cs = (s, live) ->
  align_up (live_end base live) align + bytes <= base + total ->
  exists s', stk_allocate s bytes = (s', Ret (align_up (live_end base live) align)).
Proof.
  intros Ha Ht F AS E Fit.
  assert (G : finv base total align (run_client (stk_ctor base total align) cs)).
  { unfold run_client. assert (G0 : finv base total align (stk_ctor base total align, [])).
    { split; [|split; [exact I|reflexivity]]. repeat split; cbn; try lia; discriminate. }
    clear E. revert G0 AS. generalize (stk_ctor base total align, @nil block). induction F as [|c cs Hc F IH]; intros sl G0 AS; cbn; [exact G0|].
    destruct AS as [A1 A2]. apply IH; [apply finv_step; assumption|exact A2]. }
  rewrite E in G. destruct G as ((D & T & A & _) & _ & H). cbn [fst snd] in H. unfold stk_allocate. cbn [shead stail].
  rewrite A, H. destruct (Z.gtb_spec (align_up (live_end base live) align + bytes) (stail s)); [lia|]. eexists; reflexivity.
Qed.

(** ---- handle_resource ---- *)
(** allocations that stay in the current buffer *)
Lemma h_inplace up h bytes al h' p : 0 < al -> 0 <= bytes -> (forall a, hhandle h = Some a -> a <= hhead h) ->
  h_allocate up h bytes al = (h', p, false) ->
  exists a, hhandle h' = Some a /\ (al | p) /\ a <= p /\ p + bytes < a + hbuf h' /\ hhead h' = p + bytes /\ hbuf h' = hbuf h /\
   (forall a0, hhandle h = Some a0 -> a = a0 /\ hhead h <= p).
Proof.
  intros Ha Hb Hh. unfold h_allocate. destruct (hhandle h) as [a|] eqn:E.
  - rewrite E. destruct (align_up_spec (hhead h) al Ha) as [A1 A2]. specialize (Hh a eq_refl).
    destruct (Z.ltb_spec (align_up (hhead h) al + bytes) (a + hbuf h)); [|discriminate]. intro Q. injection Q as <- <-.
    exists a. cbn. repeat split; auto; try lia. congruence.
  - cbn [hhandle hhead hbuf]. destruct (align_up_spec (up (hcount h) (hbuf h) al) al Ha) as [A1 A2].
    destruct (Z.ltb_spec (align_up (up (hcount h) (hbuf h) al) al + bytes) (up (hcount h) (hbuf h) al + hbuf h)); [|discriminate].
    intro Q. injection Q as <- <-. eexists. cbn. repeat split; auto; try lia; discriminate.
Qed.
(** the offsets handed out by acquire() stay in range of the buffer that replaces the old one, and above earlier offsets *)
Lemma h_offsets up h bytes al h' p grown : 0 < al -> 0 <= bytes -> (forall a, hhandle h = Some a -> a <= hhead h) -> 0 < hbuf h ->
  h_allocate up h bytes al = (h', p, grown) ->
  exists a, hhandle h' = Some a /\ a <= p /\ p + bytes <= a + hbuf h' /\ hhead h' = p + bytes /\
    (forall a0, hhandle h = Some a0 -> hhead h - a0 <= p - a).
Proof.
  intros Ha Hb Hh Hp. destruct grown.
  - unfold h_allocate. destruct (hhandle h) as [a|] eqn:E.
    + rewrite E. destruct (align_up_spec (hhead h) al Ha) as [A1 A2]. specialize (Hh a eq_refl).
      destruct (Z.ltb_spec (align_up (hhead h) al + bytes) (a + hbuf h)); [discriminate|]. intro Q. injection Q as <- <-.
      eexists. cbn. repeat split; try lia. intros a0 Q. injection Q as <-. lia.
    + cbn [hhandle hhead hbuf hcount]. destruct (align_up_spec (up (hcount h) (hbuf h) al) al Ha) as [A1 A2].
      destruct (Z.ltb_spec (align_up (up (hcount h) (hbuf h) al) al + bytes) (up (hcount h) (hbuf h) al + hbuf h)); [discriminate|].
      intro Q. injection Q as <- <-. eexists. cbn. repeat split; try lia. discriminate.
  - intro Q. destruct (h_inplace up h bytes al h' p Ha Hb Hh Q) as (a & E & A1 & A2 & A3 & A4 & A5 & A6).
    exists a. repeat split; auto; try lia. intros a0 E0. destruct (A6 a0 E0). lia.
Qed.
