(** Insertion, search and removal on the heap, in terms of the in-order list of entries. *)
From Verif Require Import Prelude RbModel RbSpec RbTree RbHeap RbHeap2 RbHeap3 RbHeap4 RbHeap5 RbHeap6.

Section H.
Variables (K V : Type) (eqb ltb : K -> K -> bool) (dk : K) (dv : V).
Notation tree := (tree K V).
Notation frame := (frame K V).
Notation st := (RbModel.st K V).
Notation RC := (RC K V dk dv).
Notation pid := (pid K V).
Notation cid := (cid K V).
Notation ids := (ids K V).
Notation cids := (cids K V).
Notation plug := (plug K V).
Notation keeps := (keeps K V).
Notation bind := (bind K V).
Notation heap := (heap K V).
Notation elems := (elems K V).
Notation bef := (bef K V).
Notation aft := (aft K V).
Notation fid := (fid K V).
Notation lid := (lid K V).
Notation rb := (rb K V).
Implicit Types (t l r : tree) (ctx : list frame) (s : st).

Lemma RC_cnt {s ctx t a b} n : RC s ctx t a b -> RC (mkS K V (heap s) (root K V s) n (next K V s)) ctx t a b.
Proof. intros [H1 H2 H3 H4 H5 H6 H7 H8]. constructor; assumption. Qed.
Lemma in_split_tree t i : In i (ids t) -> exists ctx c l k v r, t = plug ctx (T c l i k v r).
Proof.
  induction t as [|c l IHl j k v r IHr]; [intros []|]. rewrite ids_T. intro H. apply in_app_or in H. destruct H as [H|[->|H]].
  - destruct (IHl H) as (ctx & c0 & l0 & k0 & v0 & r0 & ->). exists (ctx ++ [F L c j k v r]), c0, l0, k0, v0, r0. rewrite plug_app. reflexivity.
  - exists [], c, l, k, v, r. reflexivity.
  - destruct (IHr H) as (ctx & c0 & l0 & k0 & v0 & r0 & ->). exists (ctx ++ [F R c j k v l]), c0, l0, k0, v0, r0. rewrite plug_app. reflexivity.
Qed.
Lemma mr_any {s t a b} i : RC s [] t a b -> In i (ids t) -> exists s', maintain_relationship K V i s = Some (tt, s') /\ RC s' [] t a b /\ keeps s s'.
Proof.
  intros H Hi. destruct (in_split_tree t i Hi) as (ctx & c & l & k & v & r & ->). apply RC_plug in H. destruct (mr_noop H) as (s' & R & H' & Kp).
  exists s'. split; [exact R|]. split; [exact (RC_all H')|exact Kp].
Qed.

(** the path followed by a search *)
Fixpoint zoom (k : K) ctx t : list frame * tree :=
  match t with
  | E => (ctx, E)
  | T c l i kk v r => if eqb k kk then (ctx, t) else if ltb k kk then zoom k (F L c i kk v r :: ctx) l else zoom k (F R c i kk v l :: ctx) r
  end.
Lemma zoom_plug k : forall t ctx ctx' t', zoom k ctx t = (ctx', t') -> plug ctx' t' = plug ctx t.
Proof.
  induction t as [|c l IHl i kk v r IHr]; intros ctx ctx' t' H; cbn [zoom] in H; [injection H as <- <-; reflexivity|].
  destruct (eqb k kk); [injection H as <- <-; reflexivity|]. destruct (ltb k kk); [apply IHl in H|apply IHr in H]; rewrite H; reflexivity.
Qed.
Lemma zoom_RC {s} k : forall t ctx ctx' t' a b, zoom k ctx t = (ctx', t') -> RC s ctx t a b -> RC s ctx' t' a b.
Proof. intros t ctx ctx' t' a b H Hr. apply (proj2 (RC_plug _ _ _ _ _ _ _ _ _)). rewrite (zoom_plug _ _ _ _ _ H). exact (RC_all Hr). Qed.
Lemma zoom_hit k : forall t ctx ctx' c l i kk v r, zoom k ctx t = (ctx', T c l i kk v r) -> eqb k kk = true.
Proof.
  induction t as [|c0 l0 IHl i0 k0 v0 r0 IHr]; intros ctx ctx' c l i kk v r H; cbn [zoom] in H; [discriminate|].
  destruct (eqb k k0) eqn:E; [injection H as <- <- <- <- <- <- <-; exact E|]. destruct (ltb k k0); eauto.
Qed.
Lemma zoom_ext k : forall t ctx ctx' t', zoom k ctx t = (ctx', t') -> exists ctx1, ctx' = ctx1 ++ ctx /\ (t <> E -> t' = E -> ctx1 <> []).
Proof.
  induction t as [|c l IHl i kk v r IHr]; intros ctx ctx' t' H; cbn [zoom] in H; [injection H as <- <-; exists []; split; [reflexivity|contradiction]|].
  destruct (eqb k kk); [injection H as <- <-; exists []; split; [reflexivity|discriminate]|].
  destruct (ltb k kk); [apply IHl in H|apply IHr in H]; destruct H as (c1 & -> & _); eexists (c1 ++ [_]); (split; [rewrite <- app_assoc; reflexivity|]);
    intros _ _ X; apply app_eq_nil in X; destruct X; discriminate.
Qed.
Lemma null_pid {s ctx t a b} : RC s ctx t a b -> null (pid t) = match t with E => true | _ => false end.
Proof. intro H. destruct t as [|c l i k v r]; [reflexivity|]. apply Nat.eqb_neq. exact (pid_nz H). Qed.
Lemma child_R {s ctx c l i k v r a b} : RC s ctx (T c l i k v r) a b -> RC s (F R c i k v l :: ctx) r a b.
Proof. intro H. apply RC_fill. exact H. Qed.
Lemma child_L {s ctx c l i k v r a b} : RC s ctx (T c l i k v r) a b -> RC s (F L c i k v r :: ctx) l a b.
Proof. intro H. apply RC_fill. exact H. Qed.

Ltac down H H' :=
  match goal with
  | |- context [if ltb ?k ?kk then L else R] => destruct (ltb k kk); cbn [nchild nleft nright]; [pose proof (child_L H) as H'|pose proof (child_R H) as H']; rewrite (null_pid H')
  end.
Lemma get_node_run k : forall t fuel s ctx a b, t <> E -> RC s ctx t a b -> length (ids t) <= fuel ->
  get_node K V eqb ltb fuel (pid t) k s = Some (pid (snd (zoom k ctx t)), s).
Proof.
  induction t as [|c l IHl i kk v r IHr]; intros fuel s ctx a b Ht H Hf; [contradiction|].
  rewrite ids_T, app_length in Hf. cbn [length] in Hf. destruct fuel as [|f]; [lia|]. cbn [RbHeap.pid get_node zoom]. rewrite (bind_run (rd_run (rd_focus H))). cbn [nkey].
  destruct (eqb k kk); [try (destruct ctx as [|[]]); reflexivity|]. down H H'.
  - destruct l; [reflexivity|]. eapply IHl; [discriminate|exact H'|lia].
  - destruct r; [reflexivity|]. eapply IHr; [discriminate|exact H'|lia].
Qed.
Lemma insert_at_run k v : forall t fuel s ctx a b, t <> E -> RC s ctx t a b -> length (ids t) <= fuel ->
  insert_at K V eqb ltb fuel (pid t) k v s =
    match zoom k ctx t with
    | (_, T _ _ i _ _ _) => wr K V i (w_val K V v) s
    | (F d _ p _ _ _ :: _, E) => bind (link_new K V d p k v) (fun _ => ret K V tt) s
    | ([], E) => None
    end.
Proof.
  induction t as [|c l IHl i kk w r IHr]; intros fuel s ctx a b Ht H Hf; [contradiction|].
  rewrite ids_T, app_length in Hf. cbn [length] in Hf. destruct fuel as [|f]; [lia|]. cbn [RbHeap.pid insert_at zoom]. rewrite (bind_run (rd_run (rd_focus H))). cbn [nkey].
  destruct (eqb k kk); [try (destruct ctx as [|[]]); reflexivity|]. down H H'.
  - destruct l; [reflexivity|]. eapply IHl; [discriminate|exact H'|lia].
  - destruct r; [reflexivity|]. eapply IHr; [discriminate|exact H'|lia].
Qed.
Lemma provide_run k : forall t fuel s ctx a b, t <> E -> RC s ctx t a b -> length (ids t) <= fuel ->
  get_or_provide K V eqb ltb dv fuel (pid t) k s =
    match zoom k ctx t with
    | (_, T _ _ i _ _ _) => Some (i, s)
    | (F d _ p _ _ _ :: _, E) => link_new K V d p k dv s
    | ([], E) => None
    end.
Proof.
  induction t as [|c l IHl i kk w r IHr]; intros fuel s ctx a b Ht H Hf; [contradiction|].
  rewrite ids_T, app_length in Hf. cbn [length] in Hf. destruct fuel as [|f]; [lia|]. cbn [RbHeap.pid get_or_provide zoom]. rewrite (bind_run (rd_run (rd_focus H))). cbn [nkey].
  destruct (eqb k kk); [try (destruct ctx as [|[]]); reflexivity|]. down H H'.
  - destruct l; [reflexivity|]. eapply IHl; [discriminate|exact H'|lia].
  - destruct r; [reflexivity|]. eapply IHr; [discriminate|exact H'|lia].
Qed.
Lemma remove_miss k : forall t fuel s ctx a b, t <> E -> RC s ctx t a b -> length (ids t) <= fuel -> snd (zoom k ctx t) = E ->
  remove K V eqb ltb fuel (pid t) k s = Some (false, s).
Proof.
  induction t as [|c l IHl i kk w r IHr]; intros fuel s ctx a b Ht H Hf Hz; [contradiction|].
  rewrite ids_T, app_length in Hf. cbn [length] in Hf. destruct fuel as [|f]; [lia|]. cbn [RbHeap.pid remove zoom] in *. rewrite (bind_run (rd_run (rd_focus H))). cbn [nkey].
  destruct (eqb k kk); [discriminate|]. down H H'.
  - destruct l; [reflexivity|]. rewrite (bind_run (IHl f s _ a b ltac:(discriminate) H' ltac:(lia) Hz)). reflexivity.
  - destruct r; [reflexivity|]. rewrite (bind_run (IHr f s _ a b ltac:(discriminate) H' ltac:(lia) Hz)). reflexivity.
Qed.
Lemma remove_hit k s0 t2 a2 b2 : RC s0 [] t2 a2 b2 -> forall t fuel s ctx ctx' c l p kk v r a b, RC s ctx t a b -> length (ids t) <= fuel ->
  zoom k ctx t = (ctx', T c l p kk v r) -> remove_node K V p s = Some (tt, s0) -> (forall f, In f ctx' -> In (fi K V f) (ids t2)) ->
  exists s1, remove K V eqb ltb fuel (pid t) k s = Some (true, s1) /\ RC s1 [] t2 a2 b2 /\ keeps s0 s1.
Proof.
  intro H0. induction t as [|c0 l0 IHl i kk0 w r0 IHr]; intros fuel s ctx ctx' c l p kk v r a b H Hf Hz Hn Ha; [discriminate|].
  rewrite ids_T, app_length in Hf. cbn [length] in Hf. destruct fuel as [|f]; [lia|]. cbn [RbHeap.pid remove zoom] in *. rewrite (bind_run (rd_run (rd_focus H))). cbn [nkey].
  destruct (eqb k kk0); [injection Hz as <- <- <- <- <- <- <-; exists s0; rewrite (bind_run Hn); split; [reflexivity|]; split; [exact H0|apply keeps_refl]|].
  destruct (ltb k kk0); cbn [nchild nleft nright]; [pose proof (child_L H) as H'|pose proof (child_R H) as H']; rewrite (null_pid H').
  - destruct l0 as [|lc ll li lk lv lr] eqn:El; [discriminate|]. rewrite <- El in *. destruct (IHl f s _ _ _ _ _ _ _ _ a b H' ltac:(lia) Hz Hn Ha) as (s1 & R1 & H1 & K1). rewrite (bind_run R1).
    destruct (mr_any i H1) as (s2 & R2 & H2 & K2).
    { destruct (zoom_ext _ _ _ _ _ Hz) as (c1 & -> & _). apply (Ha (F L c0 i kk0 w r0)). apply in_or_app. right. left. reflexivity. }
    rewrite (bind_run R2). exists s2. split; [reflexivity|]. split; [exact H2|eapply keeps_trans; eassumption].
  - destruct r0 as [|lc ll li lk lv lr] eqn:El; [discriminate|]. rewrite <- El in *. destruct (IHr f s _ _ _ _ _ _ _ _ a b H' ltac:(lia) Hz Hn Ha) as (s1 & R1 & H1 & K1). rewrite (bind_run R1).
    destruct (mr_any i H1) as (s2 & R2 & H2 & K2).
    { destruct (zoom_ext _ _ _ _ _ Hz) as (c1 & -> & _). apply (Ha (F R c0 i kk0 w l0)). apply in_or_app. right. left. reflexivity. }
    rewrite (bind_run R2). exists s2. split; [reflexivity|]. split; [exact H2|eapply keeps_trans; eassumption].
Qed.

(** linking a new entry *)
Lemma link_new_run {s d gc pi pk pv x ctx m} k v :
  let c := F d gc pi pk pv x :: ctx in
  RC s c E (fid (bef c ++ aft c)) (lid (bef c ++ aft c)) -> rb (plug c E) Black m ->
  exists s' t', link_new K V d pi k v s = Some (next K V s, s') /\ elems t' = bef c ++ (next K V s, (k, v)) :: aft c /\ RC s' [] t' (fid (elems t')) (lid (elems t')) /\
    (exists n, rb t' Black n) /\ cnt K V s' = S (cnt K V s).
Proof.
  intros c H Hb. destruct (link_leaf K V dk dv k v H) as (s1 & s2 & s3 & R1 & R2 & R3 & H3 & Kc). set (p := next K V s) in *.
  unfold link_new. rewrite (bind_run R1), (bind_run R2), (bind_run R3). unfold hdr.
  pose proof (rc_hdr _ _ _ _ _ _ _ _ _ H3) as Hh. rewrite (bind_run (rd_run Hh)).
  pose proof (RC_elems_nd K V dk dv H) as Nd. cbn [RbTree.elems app] in Nd.
  assert (W : exists s4, (if Nat.eqb (nchild K V d (mkN K V Red (rid K V c (pid (T Red E p k v E))) (fid (bef c ++ aft c)) (lid (bef c ++ aft c)) dk dv)) pi then wr K V 1 (w_child K V d p) else ret K V tt) s3 = Some (tt, s4) /\
     RC s4 c (T Red E p k v E) (fid (bef c ++ (p, (k, v)) :: aft c)) (lid (bef c ++ (p, (k, v)) :: aft c)) /\ keeps s3 s4).
  { destruct d; cbn [nchild nleft nright].
    - assert (Ba : lid (bef c ++ (p, (k, v)) :: aft c) = lid (bef c ++ aft c)).
      { unfold c. cbn [RbTree.bef RbTree.aft]. rewrite !lid_cons. change ((p, (k, v)) :: ?z) with ([(p, (k, v))] ++ z) at 1. rewrite lid_app by discriminate. reflexivity. }
      rewrite Ba. destruct (Nat.eqb_spec (fid (bef c ++ aft c)) pi) as [Ef|Nf].
      + assert (Eb : bef c = []).
        { destruct (bef c) as [|e m0] eqn:Eb; [reflexivity|]. exfalso. cbn in Ef. cbn [app map] in Nd. inversion Nd as [|? ? Ni _]; subst. apply Ni. rewrite map_app. apply in_or_app. right. unfold c. left. reflexivity. }
        destruct (header_run L p H3) as (s4 & R4 & H4 & K4). exists s4. split; [exact R4|]. split; [|exact K4]. rewrite Eb in H4 |- *. exact H4.
      + exists s3. split; [reflexivity|]. split; [|apply keeps_refl]. destruct (bef c) as [|e m0] eqn:Eb; [exfalso; apply Nf; unfold c; reflexivity|]. exact H3.
    - assert (Nb : bef c <> []) by (unfold c; cbn [RbTree.bef]; intro X; apply app_eq_nil in X; destruct X as [_ X]; apply app_eq_nil in X; destruct X; discriminate).
      assert (Ba : fid (bef c ++ (p, (k, v)) :: aft c) = fid (bef c ++ aft c)) by (rewrite !fid_app by exact Nb; reflexivity).
      rewrite Ba. destruct (Nat.eqb_spec (lid (bef c ++ aft c)) pi) as [Ef|Nf].
      + assert (Eb : aft c = []).
        { destruct (aft c) as [|e m0] eqn:Eb; [reflexivity|]. exfalso. rewrite lid_app in Ef by discriminate. pose proof (lid_in _ _ (e :: m0) ltac:(discriminate)) as Hi. rewrite Ef in Hi.
          rewrite map_app in Nd. destruct (nd_app _ _ Nd) as (_ & _ & Dj). apply (Dj pi); [|exact Hi]. unfold c. cbn [RbTree.bef]. rewrite !map_app. apply in_or_app. right. apply in_or_app. right. left. reflexivity. }
        destruct (header_run R p H3) as (s4 & R4 & H4 & K4). exists s4. split; [exact R4|]. split; [|exact K4]. rewrite Eb in H4 |- *. rewrite lid_snoc. exact H4.
      + exists s3. split; [reflexivity|]. split; [|apply keeps_refl]. destruct (aft c) as [|e m0] eqn:Eb.
        * exfalso. apply Nf. rewrite app_nil_r. unfold c. cbn [RbTree.bef]. rewrite app_assoc, lid_snoc. reflexivity.
        * rewrite lid_cons. change ((p, (k, v)) :: e :: m0) with ([(p, (k, v))] ++ e :: m0). rewrite lid_app by discriminate. rewrite lid_app in H3 by discriminate. exact H3. }
  destruct W as (s4 & R4 & H4 & K4). rewrite (bind_run R4). rewrite (bind_run (eq_refl : get_fuel K V s4 = Some (next K V s4, s4))).
  destruct (mai_run K V dk dv _ _ _ _ _ _ _ _ _ _ (RC_fuel H4) H4) as (s5 & R5 & H5 & K5). rewrite (bind_run R5). unfold get_cnt, set_cnt, ret, RbModel.bind.
  eexists. exists (ins_fix K V c (T Red E p k v E)). split; [reflexivity|].
  assert (Ee : elems (ins_fix K V c (T Red E p k v E)) = bef c ++ (p, (k, v)) :: aft c) by (rewrite (elems_ins_fix K V (S (length c))) by lia; rewrite elems_plug; reflexivity).
  split; [exact Ee|]. rewrite Ee. split; [apply RC_cnt; exact H5|].
  split.
  - destruct (rb_plug_inv K V _ _ _ Hb) as (c1 & n & B1 & C1 & _). inversion B1; subst. apply (ins_fix_rb K V (S (length c)) c E p k v E 0); [lia|exact C1|constructor|constructor].
  - cbn [cnt]. destruct K4 as [K4 _], K5 as [K5 _]. congruence.
Qed.
End H.
