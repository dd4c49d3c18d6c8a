(** The steps of insertion and removal on the heap. *)
From Verif Require Import Prelude RbModel RbTree RbHeap RbHeap2 RbHeap3.

Section H.
Variables (K V : Type) (dk : K) (dv : V).
Notation tree := (tree K V).
Notation frame := (frame K V).
Notation st := (RbModel.st K V).
Notation RC := (RC K V dk dv).
Notation pid := (pid K V).
Notation cid := (cid K V).
Notation ids := (ids K V).
Notation cids := (cids K V).
Notation rep := (rep K V).
Notation repc := (repc K V).
Notation rid := (rid K V).
Notation plug := (plug K V).
Notation keeps := (keeps K V).
Notation bind := (bind K V).
Notation check := (check K V).
Notation heap := (heap K V).
Notation mkN := (mkN K V).
Notation put := (put K V).
Notation same_dom := (same_dom K V).
Implicit Types (t l r y z u : tree) (ctx : list frame) (s : st).

(** the number of nodes is below the next address *)
Lemma range_length : forall (l : list nat) n, NoDup l -> (forall i, In i l -> 2 <= i < n) -> 2 <= n -> length l + 2 <= n.
Proof.
  intros l n Nd Hr Hn. assert (I : incl l (seq 2 (n - 2))) by (intros i Hi; apply in_seq; specialize (Hr i Hi); lia).
  apply (NoDup_incl_length Nd) in I. rewrite seq_length in I. lia.
Qed.
Lemma RC_size {s ctx t a b} : RC s ctx t a b -> length (ids t) + length (cids ctx) + 2 <= next K V s.
Proof. intro H. pose proof (range_length _ _ (rc_nd _ _ _ _ _ _ _ _ _ H) (rc_rng _ _ _ _ _ _ _ _ _ H) (rc_next _ _ _ _ _ _ _ _ _ H)) as L. rewrite app_length in L. lia. Qed.
Lemma cids_length ctx : length ctx <= length (cids ctx).
Proof. induction ctx as [|f ctx IH]; cbn [length RbHeap.cids]; [lia|]. rewrite app_length. lia. Qed.
Lemma RC_fuel {s ctx t a b} : RC s ctx t a b -> length ctx < next K V s.
Proof. intro H. pose proof (RC_size H). pose proof (cids_length ctx). lia. Qed.

(** maintainRelationship changes nothing when the links are right *)
Lemma mr_noop {s ctx c l i k v r a b} : RC s ctx (T c l i k v r) a b ->
  exists s', maintain_relationship K V i s = Some (tt, s') /\ RC s' ctx (T c l i k v r) a b /\ keeps s s'.
Proof.
  intro H. pose proof (fun q => ids_pos (q := q) H) as Pos. rewrite ids_T in Pos. destruct H as [H1 H2 H3 H4 H5 H6 H7 H8]. cbn in H2. destruct H2 as (A & B & C).
  rewrite ids_T in H3. rewrite ids_T in H4. rewrite ids_T in H7.
  assert (P : Permutation ((ids l ++ i :: ids r) ++ cids ctx) (i :: (ids l ++ ids r) ++ cids ctx)).
  { rewrite <- app_assoc. cbn [app]. rewrite <- Permutation_middle. rewrite <- app_assoc. reflexivity. }
  pose proof (Permutation_NoDup P H3) as Nd. change (i :: (ids l ++ ids r) ++ cids ctx) with ((i :: ids l ++ ids r) ++ cids ctx) in Nd.
  destruct (nd_app _ _ Nd) as (N1 & N2 & N3).
  destruct (maintain_run K V s i L c (cid ctx) l r k v i i A B C N1) as (s' & R & A' & B' & C' & E & D & T' & Kp).
  { intros q Hq. apply Pos. apply (Permutation_in _ (Permutation_sym P)). right. apply in_or_app. auto. }
  exists s'. split; [exact R|]. split; [|exact Kp]. destruct Kp as [_ Kn].
  assert (Oc : forall q, In q (cids ctx) -> ~ In q (ids l) /\ ~ In q (ids r)).
  { intros q Hq. split; intro X; apply (N3 q); try assumption; right; apply in_or_app; auto. }
  assert (O1 : ~ In 1 (ids l) /\ ~ In 1 (ids r)).
  { split; intro X; [destruct (Pos 1)|destruct (Pos 1)]; try congruence; rewrite !in_app_iff; cbn; auto. }
  constructor.
  - apply (repc_ext _ _ (heap s)); [|exact H1]. intros q Hq. apply E; apply Oc; exact Hq.
  - cbn. auto.
  - rewrite ids_T. exact H3.
  - intros q Hq. rewrite Kn. apply H4. rewrite ids_T in Hq. exact Hq.
  - rewrite T'. exact H5.
  - rewrite E by apply O1. exact H6.
  - intros q n Hq. rewrite ids_T. destruct (D q n Hq) as (n' & Hn'). eauto.
  - lia.
Qed.

(** relative contexts *)
Definition cidb (bot : nat) ctx : nat := match ctx with [] => bot | f :: _ => fi K V f end.
Fixpoint repg (h : nat -> option (RbModel.node K V)) (bot : nat) ctx (p : nat) : Prop :=
  match ctx with
  | [] => True
  | F d c i k v x :: ctx' => h i = Some (mkF K V d c (cidb bot ctx') p (pid x) k v) /\ rep h i x /\ repg h bot ctx' i
  end.
Lemma rep_plug h bot ctx : forall t, rep h bot (plug ctx t) <-> repg h bot ctx (pid t) /\ rep h (cidb bot ctx) t.
Proof.
  induction ctx as [|[d c i k v x] ctx IH]; intro t; cbn [RbTree.plug repg cidb]; [tauto|]. rewrite IH. unfold fill. cbn [fd fc fi fk fv fs].
  rewrite pid_node, rep_node. cbn [cidb]. tauto.
Qed.
Lemma repg_ext h h' bot ctx : forall p, (forall q, In q (cids ctx) -> h' q = h q) -> repg h bot ctx p -> repg h' bot ctx p.
Proof.
  induction ctx as [|[d c i k v x] ctx IH]; intros p Ex H; [exact I|]. cbn in Ex, H |- *. destruct H as (H1 & H2 & H3).
  split; [rewrite Ex; auto|]. split; [apply (rep_ext _ _ h); [|exact H2]|apply IH; [|exact H3]]; intros q Hq; apply Ex; right; apply in_or_app; auto.
Qed.
Lemma ids_plug ctx : forall t, Permutation (ids (plug ctx t)) (ids t ++ cids ctx).
Proof.
  induction ctx as [|[d c i k v x] ctx IH]; intro t; cbn [RbTree.plug RbHeap.cids fi fs]; [rewrite app_nil_r; reflexivity|]. rewrite IH. unfold fill. cbn [fd fc fi fk fv fs].
  rewrite ids_node. cbn [app]. rewrite <- Permutation_middle. apply perm_skip. rewrite <- app_assoc. reflexivity.
Qed.
Lemma pid_plug f ctx t t' : pid (plug (f :: ctx) t) = pid (plug (f :: ctx) t').
Proof.
  revert f t t'. induction ctx as [|g ctx IH]; intros f t t'; [cbn; unfold fill; rewrite !pid_node; reflexivity|].
  change (plug (f :: g :: ctx) t) with (plug (g :: ctx) (fill K V f t)). change (plug (f :: g :: ctx) t') with (plug (g :: ctx) (fill K V f t')). apply IH.
Qed.

(** direction of a node whose record may have changed, but not its parent link *)
Lemma direction_raw {s s' ctx t a b n} : RC s ctx t a b -> pid t <> 0 -> root K V s' = root K V s -> heap s' (pid t) = Some n -> npar K V n = cid ctx ->
  (ctx <> [] -> heap s' (cid ctx) = heap s (cid ctx)) -> get_direction K V (pid t) s' = Some (cdir K V ctx, s').
Proof.
  intros H Hz Hr Hn Hp Hc. pose proof (is_root_run H Hz) as Ir. unfold is_root, get_root, RbModel.bind, ret in Ir. cbn in Ir. injection Ir as Ir.
  unfold get_direction. assert (Ir' : is_root K V (pid t) s' = Some (match ctx with [] => true | _ => false end, s')).
  { unfold is_root, get_root, RbModel.bind, ret. cbn. rewrite Hr, Ir. reflexivity. }
  rewrite (bind_run Ir'). pose proof (direction_run H Hz) as Dr. unfold get_direction in Dr. rewrite (bind_run (is_root_run H Hz)) in Dr.
  destruct ctx as [|[d c i k v x] ctx]; [reflexivity|]. rewrite (bind_run (rd_run Hn)). rewrite Hp.
  pose proof (rd_parent H) as Rp. cbn [RbHeap.cid fi] in *.
  assert (Rp' : heap s' i = Some (mkF K V d c (cid ctx) (pid t) (pid x) k v)) by (rewrite Hc by discriminate; exact Rp).
  rewrite (bind_run (rd_run Rp')). destruct t as [|tc l ti tk tv r]; [contradiction|]. cbn [RbHeap.pid] in *.
  rewrite (bind_run (rd_run (rd_focus H))) in Dr. cbn [npar RbHeap.cid fi] in Dr. rewrite (bind_run (rd_run Rp)) in Dr. unfold ret in Dr |- *.
  injection Dr as Dr. rewrite Dr. reflexivity.
Qed.

Definition lefts ctx : Prop := Forall (fun f => fd K V f = L) ctx.
Lemma RC_down {s ctx rctx c l n k v t a b} : RC s ctx (T c l n k v (plug rctx t)) a b <-> RC s (rctx ++ F R c n k v l :: ctx) t a b.
Proof. rewrite RC_app, RC_fill. reflexivity. Qed.
Lemma wr_get {s p f n} : heap s p = Some n -> exists s', wr K V p f s = Some (tt, s') /\ heap s' p = Some (f n) /\ (forall q, q <> p -> heap s' q = heap s q) /\
  same_dom (heap s) (heap s') /\ root K V s' = root K V s /\ keeps s s'.
Proof.
  intro H. eexists. split; [apply (wr_run H)|]. cbn [RbModel.heap root]. split; [apply put_eq|]. split; [intros q Q; apply put_neq; exact Q|].
  split; [eapply same_dom_put; exact H|]. split; [reflexivity|split; reflexivity].
Qed.

Lemma swap_run {s ctx c l n k v rctx c2 m mk mv mr a b} : RC s ctx (T c l n k v (plug rctx (T c2 E m mk mv mr))) a b -> lefts rctx ->
  exists s', swap_nodes K V n m (cidb n rctx) s = Some (tt, s') /\ RC s' ctx (T c l m mk mv (plug rctx (T c2 E n k v mr))) a b /\ keeps s s'.
Proof.
  intros H Hl.
  set (r2 := plug rctx (T c2 E n k v mr)).
  assert (P : Permutation (ids (T c l n k v (plug rctx (T c2 E m mk mv mr))) ++ cids ctx) (n :: m :: ids l ++ ids mr ++ cids rctx ++ cids ctx)).
  { rewrite ids_T, ids_plug, ids_T. cbn [RbHeap.ids elems map app]. rewrite <- app_assoc. cbn [app]. rewrite <- Permutation_middle. apply perm_skip.
    rewrite <- Permutation_middle. apply perm_skip. rewrite <- !app_assoc. reflexivity. }
  assert (P' : Permutation (ids (T c l m mk mv r2) ++ cids ctx) (n :: m :: ids l ++ ids mr ++ cids rctx ++ cids ctx)).
  { unfold r2. rewrite ids_T, ids_plug, ids_T. cbn [RbHeap.ids elems map app]. rewrite <- app_assoc. cbn [app]. rewrite <- Permutation_middle. rewrite perm_swap.
    apply perm_skip. rewrite <- Permutation_middle. rewrite <- !app_assoc. reflexivity. }
  pose proof (proj1 RC_down H) as Hm.
  assert (Pos : forall q, In q (n :: m :: ids l ++ ids mr ++ cids rctx ++ cids ctx) -> q <> 0 /\ q <> 1).
  { intros q Hq. apply (ids_pos H). apply (Permutation_in _ (Permutation_sym P)). exact Hq. }
  pose proof (pid_nz H) as Zn. pose proof (pid_nz Hm) as Zm.
  pose proof (direction_run Hm Zm) as Dm. cbn [RbHeap.pid] in Dm.
  pose proof (rd_focus Hm) as Am. cbn [RbHeap.pid] in Am. pose proof (rd_focus H) as An.
  pose proof (@direction_raw s) as Draw. specialize (Draw) with (1 := H) (2 := Zn). cbn [RbHeap.pid] in Draw.
  destruct H as [H1 H2 H3 H4 H5 H6 H7 H8]. cbn [RbHeap.pid] in H1, H5, H6. apply (Permutation_NoDup P) in H3.
  inversion H3 as [|? ? Nn Nd1]; subst. inversion Nd1 as [|? ? Nm Nd2]; subst.
  destruct (nd_app _ _ Nd2) as (Nl & Nd3 & Dl). destruct (nd_app _ _ Nd3) as (Nmr & Nd4 & Dmr). destruct (nd_app _ _ Nd4) as (Nr & Nc & Dr).
  assert (Nnm : n <> m) by (intros ->; apply Nn; left; reflexivity).
  cbn in Nn. rewrite !in_app_iff in Nn, Nm.
  assert (Ml : forall q, In q (ids l) -> ~ In q (ids mr) /\ ~ In q (cids rctx) /\ ~ In q (cids ctx)).
  { intros q Hq. specialize (Dl q Hq). rewrite !in_app_iff in Dl. tauto. }
  assert (Mmr : forall q, In q (ids mr) -> ~ In q (ids l) /\ ~ In q (cids rctx) /\ ~ In q (cids ctx)).
  { intros q Hq. pose proof (Dmr q Hq) as X. rewrite !in_app_iff in X. split; [|tauto]. intro Y. pose proof (Ml q Y). tauto. }
  assert (Mr : forall q, In q (cids rctx) -> ~ In q (ids l) /\ ~ In q (ids mr) /\ ~ In q (cids ctx)).
  { intros q Hq. split; [|split]; [intro Y; pose proof (Ml q Y); tauto|intro Y; pose proof (Mmr q Y); tauto|exact (Dr q Hq)]. }
  assert (Mc : forall q, In q (cids ctx) -> ~ In q (ids l) /\ ~ In q (ids mr) /\ ~ In q (cids rctx)).
  { intros q Hq. split; [|split]; [intro Y; pose proof (Ml q Y); tauto|intro Y; pose proof (Mmr q Y); tauto|intro Y; pose proof (Mr q Y); tauto]. }
  assert (O1 : n <> 1 /\ m <> 1 /\ ~ In 1 (ids l) /\ ~ In 1 (ids mr) /\ ~ In 1 (cids rctx) /\ ~ In 1 (cids ctx)).
  { split; [apply (Pos n); cbn; auto|]. split; [apply (Pos m); cbn; auto|].
    repeat split; intro X; destruct (Pos 1) as [_ Y]; try congruence; cbn; rewrite !in_app_iff; auto 8. }
  destruct O1 as (O1n & O1m & O1l & O1mr & O1r & O1c).
  cbn in H2. destruct H2 as (_ & Rl & Rr). apply rep_plug in Rr. destruct Rr as (Gr & Rm). cbn in Rm. destruct Rm as (_ & _ & Rmr). cbn [RbHeap.pid] in Gr.
  assert (Ncc : ctx <> [] -> In (cid ctx) (cids ctx)) by (destruct ctx as [|f ctx0]; [contradiction|]; intros _; left; reflexivity).
  (* the first write: the parent of the successor now points to n *)
  assert (W : exists s1, (match cdir K V (rctx ++ F R c n k v l :: ctx) with DSide d => bind (rd K V m) (fun sn => wr K V (npar K V sn) (w_child K V d n)) | DRoot => ret K V tt end) s = Some (tt, s1) /\
     heap s1 n = Some (mkN c (cid ctx) (pid l) (pid r2) k v) /\ heap s1 m = Some (mkN c2 (cidb n rctx) 0 (pid mr) mk mv) /\ repg (heap s1) n rctx n /\
     (forall q, q <> n -> ~ In q (cids rctx) -> heap s1 q = heap s q) /\ same_dom (heap s) (heap s1) /\ root K V s1 = root K V s /\ keeps s s1).
  { destruct rctx as [|[d gc q gk gv gs] rctx'].
    - cbn [app cdir]. rewrite (bind_run (rd_run Am)). cbn [npar RbHeap.cid fi app].
      destruct (@wr_get s n (w_child K V R n) _ An) as (s1 & R1 & An1 & E1 & D1 & T1 & K1). exists s1. split; [exact R1|]. split; [exact An1|].
      split; [rewrite E1 by congruence; exact Am|]. split; [exact I|]. split; [intros q Q _; apply E1; exact Q|]. auto.
    - inversion Hl as [|? ? Hd _]; subst. cbn in Hd. subst d. cbn [app cdir]. rewrite (bind_run (rd_run Am)). cbn [npar RbHeap.cid fi app].
      cbn [repg] in Gr. destruct Gr as (Aq & Rgs & Gr). cbn [RbHeap.cids fi fs] in *. inversion Nr as [|? ? Nq Nr']; subst.
      destruct (@wr_get s q (w_child K V L n) _ Aq) as (s1 & R1 & Aq1 & E1 & D1 & T1 & K1). exists s1. split; [exact R1|].
      assert (Qn : n <> q) by (intros ->; cbn in Nn; tauto). assert (Qm : m <> q) by (intros ->; cbn in Nm; tauto).
      split; [rewrite E1 by exact Qn; rewrite An; unfold r2; rewrite (pid_plug _ _ (T c2 E m mk mv mr) (T c2 E n k v mr)); reflexivity|].
      split; [rewrite E1 by exact Qm; exact Am|]. split; [|split; [intros x Hx Hi; apply E1; intros ->; apply Hi; left; reflexivity|auto]].
      cbn [repg]. split; [exact Aq1|]. rewrite in_app_iff in Nq.
      split; [apply (rep_ext _ _ (heap s)); [|exact Rgs]|apply (repg_ext (heap s)); [|exact Gr]]; intros x Hx; apply E1; intros ->; tauto. }
  destruct W as (s1 & R1 & An1 & Am1 & G1 & E1 & D1 & T1 & K1).
  unfold swap_nodes. rewrite (bind_run Dm), (bind_run R1).
  assert (Ec1 : forall q, In q (cids ctx) -> heap s1 q = heap s q) by (intros q Hq; apply E1; [intros ->; tauto|apply Mc; exact Hq]).
  rewrite (bind_run (Draw s1 _ T1 An1 eq_refl (fun X => Ec1 _ (Ncc X)))).
  (* link from above *)
  destruct (relink_run K V dk dv s1 ctx n m a b) as (s2 & R2 & C2 & T2 & Hh2 & E2 & D2 & K2).
  { apply (repc_ext _ _ (heap s)); [exact Ec1|exact H1]. } { exact Nc. } { exact O1c. } { rewrite T1. exact H5. } { rewrite E1 by (congruence || assumption). exact H6. }
  assert (R2' : (match cdir K V ctx with DSide d => bind (rd K V n) (fun n0 => wr K V (npar K V n0) (w_child K V d m)) | DRoot => bind (set_root K V m) (fun _ => wr K V hdr (w_par K V m)) end) s1 = Some (tt, s2)).
  { destruct (cdir K V ctx) eqn:Ecd; [exact R2|]. rewrite (bind_run (rd_run An1)). exact R2. }
  rewrite (bind_run R2').
  assert (En2 : heap s2 n = heap s1 n) by (apply E2; [exact O1n|tauto]). assert (Em2 : heap s2 m = heap s1 m) by (apply E2; [exact O1m|tauto]).
  assert (An2 : heap s2 n = Some (mkN c (cid ctx) (pid l) (pid r2) k v)) by congruence. assert (Am2 : heap s2 m = Some (mkN c2 (cidb n rctx) 0 (pid mr) mk mv)) by congruence.
  rewrite (bind_run (rd_run An2)), (bind_run (rd_run Am2)). cbn [ncol npar nleft nright].
  (* exchange of the records *)
  destruct (@wr_get s2 n (fun n0 => mkN c2 (cidb n rctx) 0 (pid mr) (nkey K V n0) (nval K V n0)) _ An2) as (s3 & R3 & An3 & E3 & D3 & T3 & K3). cbn [nkey nval] in An3. rewrite (bind_run R3).
  assert (Am3 : heap s3 m = Some (mkN c2 (cidb n rctx) 0 (pid mr) mk mv)) by (rewrite E3 by congruence; exact Am2).
  destruct (@wr_get s3 m (fun n0 => mkN c (cid ctx) (pid l) (pid r2) (nkey K V n0) (nval K V n0)) _ Am3) as (s4 & R4 & Am4 & E4 & D4 & T4 & K4). cbn [nkey nval] in Am4. rewrite (bind_run R4).
  assert (An4 : heap s4 n = Some (mkN c2 (cidb n rctx) 0 (pid mr) k v)) by (rewrite E4 by congruence; exact An3).
  assert (E14 : forall q, q <> n -> q <> m -> q <> 1 -> ~ In q (cids ctx) -> heap s4 q = heap s1 q) by (intros q Q1 Q2 Q3 Q4; rewrite E4, E3, E2 by assumption; reflexivity).
  assert (Rmr4 : rep (heap s4) m mr).
  { apply (rep_ext _ _ (heap s)); [|exact Rmr]. intros q Hq. rewrite E14; [apply E1| | | |]; try (intros ->; tauto); apply Mmr; exact Hq. }
  assert (Rl4 : rep (heap s4) n l).
  { apply (rep_ext _ _ (heap s)); [|exact Rl]. intros q Hq. rewrite E14; [apply E1| | | |]; try (intros ->; tauto); apply Ml; exact Hq. }
  assert (G4 : repg (heap s4) n rctx n).
  { apply (repg_ext (heap s1)); [|exact G1]. intros q Hq. apply E14; try (intros ->; tauto). apply Mr; exact Hq. }
  (* maintainRelationship(node) *)
  destruct (maintain_run K V s4 n L c2 (cidb n rctx) E mr k v 0 m An4 I Rmr4) as (s5 & R5 & An5 & _ & Rmr5 & E5 & D5 & T5 & K5).
  { cbn. constructor; [tauto|exact Nmr]. } { cbn. intros q Hq. apply Pos. cbn. rewrite !in_app_iff. auto. }
  rewrite (bind_run R5). cbn [mkF] in An5.
  assert (Em5 : heap s5 m = Some (mkN c (cid ctx) (pid l) (pid r2) mk mv)) by (rewrite E5; [exact Am4|auto|tauto]).
  assert (Rl5 : rep (heap s5) n l) by (apply (rep_ext _ _ (heap s4)); [|exact Rl4]; intros q Hq; apply E5; [auto|apply Ml; exact Hq]).
  assert (G5 : repg (heap s5) n rctx n) by (apply (repg_ext (heap s4)); [|exact G4]; intros q Hq; apply E5; [auto|apply Mr; exact Hq]).
  assert (Rr5 : rep (heap s5) n r2) by (unfold r2; apply rep_plug; split; [exact G5|]; cbn; auto).
  (* maintainRelationship(successor) *)
  assert (Pr2 : Permutation (ids r2) (n :: ids mr ++ cids rctx)) by (unfold r2; rewrite ids_plug, ids_T; reflexivity).
  assert (Ir2 : forall q, In q (ids r2) <-> q = n \/ In q (ids mr) \/ In q (cids rctx)).
  { intro q. split; intro X; [apply (Permutation_in _ Pr2) in X|apply (Permutation_in _ (Permutation_sym Pr2))]; cbn in *; rewrite in_app_iff in *; intuition. }
  destruct (maintain_run K V s5 m L c (cid ctx) l r2 mk mv n n Em5 Rl5 Rr5) as (s6 & R6 & Am6 & Rl6 & Rr6 & E6 & D6 & T6 & K6).
  { eapply Permutation_NoDup; [apply perm_skip, Permutation_app_head, Permutation_sym, Pr2|].
    replace (n :: m :: ids l ++ ids mr ++ cids rctx ++ cids ctx) with ((n :: m :: ids l ++ ids mr ++ cids rctx) ++ cids ctx) in H3 by (cbn; rewrite <- !app_assoc; reflexivity).
    destruct (nd_app _ _ H3) as (N & _). eapply Permutation_NoDup; [|exact N]. rewrite perm_swap. apply perm_skip. apply Permutation_middle. }
  { intros q Hq. apply Pos. apply in_app_or in Hq. rewrite Ir2 in Hq. cbn. rewrite !in_app_iff. intuition. }
  rewrite (bind_run R6). cbn [mkF] in Am6.
  assert (H' : RC s6 ctx (T c l m mk mv r2) a b).
  { assert (Nx : next K V s6 = next K V s) by (destruct K1 as [_ ?], K2 as [_ ?], K3 as [_ ?], K4 as [_ ?], K5 as [_ ?], K6 as [_ ?]; congruence).
    constructor.
    - apply (repc_ext _ _ (heap s2)); [|exact C2]. intros q Hq. destruct (Mc q Hq) as (M1 & M2 & M3). rewrite E6, E5, E4, E3; auto; try (intros ->; tauto).
      rewrite Ir2. intros [->|[|]]; tauto.
    - cbn. auto.
    - eapply Permutation_NoDup; [apply Permutation_sym; exact P'|exact H3].
    - intros q Hq. rewrite Nx. apply H4. apply (Permutation_in _ (Permutation_sym P)). apply (Permutation_in _ P'). exact Hq.
    - cbn [RbHeap.pid]. rewrite T6, T5, T4, T3. exact T2.
    - cbn [RbHeap.pid]. rewrite E6, E5, E4, E3; auto. rewrite Ir2. intros [|[|]]; [congruence|tauto|tauto].
    - intros q nn Hq. assert (DD : same_dom (heap s) (heap s6)).
      { apply (same_dom_trans _ _ _ _ _ D1). apply (same_dom_trans _ _ _ _ _ D2). apply (same_dom_trans _ _ _ _ _ D3). apply (same_dom_trans _ _ _ _ _ D4). apply (same_dom_trans _ _ _ _ _ D5). exact D6. }
      destruct (DD q nn Hq) as (n' & Hn'). destruct (H7 q n' Hn') as [|Hi]; [auto|]. right. apply (Permutation_in _ (Permutation_sym P')). apply (Permutation_in _ P). exact Hi.
    - lia. }
  assert (Kp : keeps s s6) by (eapply keeps_trans; [exact K1|eapply keeps_trans; [exact K2|eapply keeps_trans; [exact K3|eapply keeps_trans; [exact K4|eapply keeps_trans; [exact K5|exact K6]]]]]).
  (* maintainRelationship(parent) *)
  destruct rctx as [|[d gc q gk gv gs] rctx'].
  - cbn [cidb]. apply (proj1 (@RC_down _ _ [] _ _ _ _ _ _ _ _)) in H'. destruct (mr_noop H') as (s7 & R7 & H7' & K7). exists s7. split; [exact R7|].
    split; [apply (proj2 (@RC_down _ _ [] _ _ _ _ _ _ _ _)); exact H7'|eapply keeps_trans; eassumption].
  - inversion Hl as [|? ? Hd _]; subst. cbn in Hd. subst d. cbn [cidb fi].
    assert (H8' : RC s6 (rctx' ++ F R c m mk mv l :: ctx) (T gc (T c2 E n k v mr) q gk gv gs) a b) by (apply RC_down; exact H').
    destruct (mr_noop H8') as (s7 & R7 & H7' & K7). exists s7. split; [exact R7|].
    split; [apply RC_down in H7'; exact H7'|eapply keeps_trans; eassumption].
Qed.
End H.
