(** Iterators, bounds, traversal and erasure through iterators. *)
From Verif Require Import Prelude RbModel RbSpec RbTree RbHeap RbHeap2 RbHeap3 RbHeap4 RbHeap5 RbHeap6 RbOps RbOps2 RbOps3.

Section H.
Variables (K V : Type) (eqb ltb : K -> K -> bool) (dk : K) (dv : V).
Notation tree := (tree K V).
Notation frame := (frame K V).
Notation st := (RbModel.st K V).
Notation RC := (RC K V dk dv).
Notation pid := (pid K V).
Notation cid := (cid K V).
Notation ids := (ids K V).
Notation cids := (cids K V).
Notation plug := (plug K V).
Notation keeps := (keeps K V).
Notation bind := (bind K V).
Notation heap := (heap K V).
Notation elems := (elems K V).
Notation bef := (bef K V).
Notation aft := (aft K V).
Notation fid := (fid K V).
Notation lid := (lid K V).
Notation rb := (rb K V).
Implicit Types (t l r : tree) (ctx : list frame) (s : st).

Notation Inv := (Inv K V ltb dk dv).
Notation ekey := (ekey K V).

(** the entry after (d = R) or before (d = L) a context *)
Definition nx (d : side) ctx : nat := match d with R => fid (aft ctx) | L => lid (bef ctx) end.
Lemma nx_same d c i k v x ctx : nx d (F d c i k v x :: ctx) = nx d ctx.
Proof. destruct d; reflexivity. Qed.
Lemma nx_opp d c i k v x ctx : nx d (F (opp d) c i k v x :: ctx) = i.
Proof. destruct d; cbn [opp nx RbTree.bef RbTree.aft]; [rewrite app_assoc, lid_snoc; reflexivity|reflexivity]. Qed.
Lemma child_ids {s ctx c l i k v r a b} d q : RC s ctx (T c l i k v r) a b -> In q (1 :: cids ctx) -> nchild K V d (mkN K V c (cid ctx) (pid l) (pid r) k v) <> q.
Proof.
  intros H Hq E. pose proof (RC_nz H ltac:(discriminate)) as Z. pose proof (fun z => ids_pos (q := z) H) as Pos. destruct H as [_ _ Nd Rg _ _ _ _]. destruct (nd_app _ _ Nd) as (_ & _ & Dj).
  assert (X : q = 0 \/ In q (ids (T c l i k v r))).
  { rewrite ids_T. destruct d; cbn [nchild nleft nright] in E; subst q; [destruct l as [|? ? j]|destruct r as [|? ? j]]; cbn [RbHeap.pid]; auto; right; rewrite ids_T; apply in_or_app; [left|right; right]; apply in_or_app; right; left; reflexivity. }
  destruct Hq as [<-|Hq].
  - destruct X as [|X]; [discriminate|]. destruct (Pos 1) as [_ Y]; [apply in_or_app; auto|]. exact (Y eq_refl).
  - destruct X as [->|X]; [destruct (Pos 0) as [Y _]; [apply in_or_app; auto|]; exact (Y eq_refl)|]. exact (Dj q X Hq).
Qed.
Lemma climb_run d : forall ctx t s fuel a b, RC s ctx t a b -> t <> E -> length ctx + 2 <= fuel ->
  exists x y xn, climb K V fuel d (pid t) (cid ctx) s = Some ((x, y), s) /\ heap s x = Some xn /\ (if Nat.eqb (nchild K V d xn) y then x else y) = nx d ctx.
Proof.
  induction ctx as [|[e gc i gk gv x] ctx IH]; intros t s fuel a b H Ht Hf; (destruct fuel as [|f]; [lia|]); cbn [climb].
  - pose proof (rc_hdr _ _ _ _ _ _ _ _ _ H) as Hh. cbn [RbHeap.cid]. rewrite (bind_run (rd_run Hh)). destruct t as [|c l p k v r]; [contradiction|]. pose proof (rd_focus H) as Hp.
    cbn [RbHeap.rid RbHeap.pid] in *. destruct (Nat.eqb_spec p (nchild K V d (mkN K V Red p a b dk dv))) as [E1|N1].
    + destruct f as [|f]; [cbn in Hf; lia|]. cbn [climb npar]. rewrite (bind_run (rd_run Hp)).
      destruct (Nat.eqb_spec 1 (nchild K V d (mkN K V c (cid []) (pid l) (pid r) k v))) as [E2|N2]; [exfalso; exact (child_ids d 1 H (or_introl eq_refl) (eq_sym E2))|].
      exists 1, p. eexists. split; [reflexivity|]. split; [exact Hh|]. rewrite <- E1, Nat.eqb_refl. destruct d; reflexivity.
    + exists p, 1. eexists. split; [reflexivity|]. split; [exact Hp|]. destruct (Nat.eqb_spec (nchild K V d (mkN K V c (cid []) (pid l) (pid r) k v)) 1) as [E2|N2]; [exfalso; exact (child_ids d 1 H (or_introl eq_refl) E2)|].
      destruct d; reflexivity.
  - pose proof (rd_parent H) as Hp. cbn [RbHeap.cid fi]. rewrite (bind_run (rd_run Hp)). pose proof (RC_nz H Ht) as Zt. assert (De : e = d \/ e = opp d) by (destruct e, d; auto).
    destruct De as [->| ->].
    + rewrite nchild_d, Nat.eqb_refl, npar_F. rewrite nx_same. apply RC_up in H. unfold fill in H. cbn [fd fc fi fk fv fs] in H.
      destruct (IH (node K V d gc t i gk gv x) s f a b H (node_nz _ _) ltac:(cbn in Hf; lia)) as (x' & y' & xn & Rr & Rest). rewrite pid_node in Rr. exists x', y', xn. auto.
    + rewrite nx_opp. replace (nchild K V d (mkF K V (opp d) gc (cid ctx) (pid t) (pid x) gk gv)) with (pid x) by (destruct d; reflexivity).
      destruct (Nat.eqb_spec (pid t) (pid x)) as [E1|N1].
      * exfalso. assert (Zx : pid x <> 0) by congruence. pose proof (rc_nd _ _ _ _ _ _ _ _ _ H) as Nd. destruct (nd_app _ _ Nd) as (_ & _ & Dj). apply (Dj (pid t)); [apply pid_in; exact Zt|].
        cbn [RbHeap.cids fi fs]. right. apply in_or_app. left. rewrite E1. apply pid_in. exact Zx.
      * destruct t as [|c l p k v r]; [contradiction|]. exists p, i. eexists. split; [reflexivity|]. split; [exact (rd_focus H)|].
        destruct (Nat.eqb_spec (nchild K V d (mkN K V c (cid (F (opp d) gc i gk gv x :: ctx)) (pid l) (pid r) k v)) i) as [E2|N2]; [exfalso|reflexivity].
        apply (child_ids d i H); [right; left; reflexivity|exact E2].
Qed.
Lemma step_focus d {s ctx c l i k v r a b} : RC s ctx (T c l i k v r) a b ->
  bind (get_fuel K V) (fun f => bind (rd K V i) (fun n => if null (nchild K V d n) then bind (climb K V (S (S f)) d i (npar K V n)) (fun w => let '(x, y) := w in bind (rd K V x) (fun xn => ret K V (if Nat.eqb (nchild K V d xn) y then x else y)))
    else descend K V f (opp d) (nchild K V d n))) s = Some (match d with R => fid (elems r ++ aft ctx) | L => lid (bef ctx ++ elems l) end, s).
Proof.
  intro H. rewrite (bind_run (eq_refl : get_fuel K V s = Some (next K V s, s))). rewrite (bind_run (rd_run (rd_focus H))). cbn [npar].
  pose proof (RC_fuel H) as Fu.
  assert (Up : nchild K V d (mkN K V c (cid ctx) (pid l) (pid r) k v) = 0 -> bind (climb K V (S (S (next K V s))) d i (cid ctx)) (fun w => let '(x, y) := w in bind (rd K V x) (fun xn => ret K V (if Nat.eqb (nchild K V d xn) y then x else y))) s = Some (nx d ctx, s)).
  { intros _. destruct (climb_run d ctx (T c l i k v r) s (S (S (next K V s))) a b H ltac:(discriminate) ltac:(lia)) as (x & y & xn & R1 & R2 & R3). cbn [RbHeap.pid] in R1. rewrite (bind_run R1). rewrite (bind_run (rd_run R2)). rewrite R3. reflexivity. }
  destruct d; cbn [nchild nleft nright opp] in *.
  - pose proof (child_L K V dk dv H) as Hl. rewrite (null_pid K V dk dv Hl). pose proof (RC_size Hl) as Sz. destruct l as [|lc ll li lk lv lr].
    + rewrite (Up eq_refl). cbn [RbTree.elems nx]. rewrite app_nil_r. reflexivity.
    + rewrite (descend_run K V dk dv R (T lc ll li lk lv lr) (next K V s) s _ _ _ ltac:(discriminate) Hl ltac:(lia)). cbn [pick]. rewrite lid_app by (apply elems_ne; discriminate). reflexivity.
  - pose proof (child_R K V dk dv H) as Hl. rewrite (null_pid K V dk dv Hl). pose proof (RC_size Hl) as Sz. destruct r as [|lc ll li lk lv lr].
    + rewrite (Up eq_refl). reflexivity.
    + rewrite (descend_run K V dk dv L (T lc ll li lk lv lr) (next K V s) s _ _ _ ltac:(discriminate) Hl ltac:(lia)). cbn [pick]. rewrite fid_app by (apply elems_ne; discriminate). reflexivity.
Qed.
(** the focus of an entry *)
Lemma split_unique (p p' q q' : list (entry K V)) i kv kv' : p' ++ (i, kv') :: q' = p ++ (i, kv) :: q -> NoDup (map fst (p ++ (i, kv) :: q)) -> p' = p /\ kv' = kv /\ q' = q.
Proof.
  revert p. induction p' as [|e p' IH]; intros p El Nd.
  - destruct p as [|e' p]; cbn in El; [injection El as -> ->; auto|]. exfalso. injection El as <- Eq. cbn in Nd. inversion Nd as [|? ? Ni _]; subst. apply Ni. rewrite map_app. apply in_or_app. right. left. reflexivity.
  - destruct p as [|e' p]; cbn in El.
    + exfalso. injection El as -> Eq. cbn in Nd. inversion Nd as [|? ? Ni _]; subst. apply Ni. rewrite map_app. apply in_or_app. right. left. reflexivity.
    + injection El as -> Eq. cbn in Nd. inversion Nd; subst. destruct (IH p Eq) as (-> & -> & ->); [assumption|]. auto.
Qed.
Lemma Inv_nd {s t} : Inv s t -> NoDup (map fst (elems t)).
Proof. intro H. pose proof (RC_elems_nd K V dk dv (iv_rc _ _ _ _ _ _ _ H)) as Nd. cbn [RbTree.bef RbTree.aft app] in Nd. rewrite app_nil_r in Nd. exact Nd. Qed.
Lemma focus_entry {s t} p i k v q : Inv s t -> elems t = p ++ (i, (k, v)) :: q ->
  exists ctx c l r, RC s ctx (T c l i k v r) (fid (elems t)) (lid (elems t)) /\ t = plug ctx (T c l i k v r) /\ p = bef ctx ++ elems l /\ q = elems r ++ aft ctx.
Proof.
  intros H El. assert (Hi : In i (ids t)) by (unfold RbHeap.ids; rewrite El, map_app; apply in_or_app; right; left; reflexivity).
  destruct (in_split_tree K V t i Hi) as (ctx & c & l & k' & v' & r & Et).
  assert (El2 : elems t = (bef ctx ++ elems l) ++ (i, (k', v')) :: (elems r ++ aft ctx)) by (rewrite Et, elems_plug; cbn [RbTree.elems]; rewrite <- !app_assoc; reflexivity).
  pose proof (Inv_nd H) as Nd. rewrite El in Nd. rewrite El in El2. symmetry in El2. destruct (split_unique _ _ _ _ _ _ _ El2 Nd) as (<- & X & <-). injection X as -> ->.
  exists ctx, c, l, r. split; [apply (proj2 (RC_plug _ _ _ _ _ _ _ _ _)); rewrite <- Et; exact (iv_rc _ _ _ _ _ _ _ H)|]. auto.
Qed.
Lemma increment_R {s t} p i k v q : Inv s t -> elems t = p ++ (i, (k, v)) :: q -> increment K V R i s = Some (fid q, s).
Proof. intros H El. destruct (focus_entry p i k v q H El) as (ctx & c & l & r & HR & _ & _ & ->). exact (step_focus R HR). Qed.
Lemma increment_L {s t} p i k v q : Inv s t -> elems t = p ++ (i, (k, v)) :: q -> increment K V L i s = Some (lid p, s).
Proof. intros H El. destruct (focus_entry p i k v q H El) as (ctx & c & l & r & HR & _ & -> & _). exact (step_focus L HR). Qed.
(** only the header is taken for the end *)
Lemma not_end {s ctx c l i k v r a b m} : RC s ctx (T c l i k v r) a b -> rb (plug ctx (T c l i k v r)) Black m ->
  forall (kk : bool -> M K V nat), bind (if is_red K V (mkN K V c (cid ctx) (pid l) (pid r) k v) then bind (rd K V (cid ctx)) (fun q => ret K V (Nat.eqb (npar K V q) i)) else ret K V false) kk s = kk false s.
Proof.
  intros H Hb kk. unfold is_red. cbn [ncol]. destruct c; [|reflexivity]. destruct ctx as [|[d gc j gk gv x] ctx].
  - exfalso. cbn in Hb. inversion Hb.
  - cbn [RbHeap.cid fi]. pose proof (rd_parent H) as Hp.
    assert (X : bind (rd K V j) (fun q => ret K V (Nat.eqb (npar K V q) i)) s = Some (false, s)); [|rewrite (bind_run X); reflexivity].
    rewrite (bind_run (rd_run Hp)). rewrite npar_F. destruct (Nat.eqb_spec (cid ctx) i) as [E1|N1]; [exfalso|reflexivity].
    pose proof (fun z => ids_pos (q := z) H) as Pos. pose proof (rc_nd _ _ _ _ _ _ _ _ _ H) as Nd. destruct (nd_app _ _ Nd) as (_ & _ & Dj).
    assert (Hi : In i (ids (T Red l i k v r))) by (rewrite ids_T; apply in_or_app; right; left; reflexivity).
    destruct ctx as [|g ctx]; cbn [RbHeap.cid] in E1; [subst i; destruct (Pos 1) as [_ Y]; [apply in_or_app; auto|]; exact (Y eq_refl)|].
    apply (Dj i Hi). cbn [RbHeap.cids fi fs]. right. apply in_or_app. right. left. exact E1.
Qed.
Lemma decrement_focus e d {s ctx c l i k v r a b m} : RC s ctx (T c l i k v r) a b -> rb (plug ctx (T c l i k v r)) Black m ->
  decrement K V e d i s = Some (match opp d with R => fid (elems r ++ aft ctx) | L => lid (bef ctx ++ elems l) end, s).
Proof.
  intros H Hb. unfold decrement. pose proof (step_focus (opp d) H) as St. rewrite opp_opp in St.
  rewrite (bind_run (eq_refl : get_fuel K V s = Some (next K V s, s))) in St. rewrite (bind_run (eq_refl : get_fuel K V s = Some (next K V s, s))). rewrite (bind_run (rd_run (rd_focus H))) in St. rewrite (bind_run (rd_run (rd_focus H))). cbn [npar] in *.
  rewrite (not_end H Hb). exact St.
Qed.
Lemma decrement_R {s t} e p i k v q : Inv s t -> elems t = p ++ (i, (k, v)) :: q -> decrement K V e R i s = Some (lid p, s).
Proof.
  intros H El. destruct (focus_entry p i k v q H El) as (ctx & c & l & r & HR & Et & -> & _). destruct (iv_rb _ _ _ _ _ _ _ H) as (m & Hm). rewrite Et in Hm. exact (decrement_focus e R HR Hm).
Qed.
Lemma decrement_L {s t} e p i k v q : Inv s t -> elems t = p ++ (i, (k, v)) :: q -> decrement K V e L i s = Some (fid q, s).
Proof.
  intros H El. destruct (focus_entry p i k v q H El) as (ctx & c & l & r & HR & Et & _ & ->). destruct (iv_rb _ _ _ _ _ _ _ H) as (m & Hm). rewrite Et in Hm. exact (decrement_focus e L HR Hm).
Qed.
Lemma decrement_end {s t} e d : Inv s t -> t <> E -> decrement K V e d hdr s = Some (match e with L => fid (elems t) | R => lid (elems t) end, s).
Proof.
  intros H Ht. unfold decrement, hdr. pose proof (iv_rc _ _ _ _ _ _ _ H) as HR. rewrite (bind_run (eq_refl : get_fuel K V s = Some (next K V s, s))).
  rewrite (bind_run (rd_run (rc_hdr _ _ _ _ _ _ _ _ _ HR))). cbn [is_red ncol npar RbHeap.rid]. destruct t as [|c l i k v r]; [contradiction|]. cbn [RbHeap.pid].
  assert (X : bind (rd K V i) (fun q => ret K V (Nat.eqb (npar K V q) 1)) s = Some (true, s)) by (rewrite (bind_run (rd_run (rd_focus HR))); reflexivity).
  rewrite (bind_run X). destruct e; reflexivity.
Qed.

(** traversal *)
Lemma hdr_entry {s t} p i k v q : Inv s t -> elems t = p ++ (i, (k, v)) :: q -> Nat.eqb i hdr = false /\ null i = false.
Proof.
  intros H El. assert (Hi : In i (ids t)) by (unfold RbHeap.ids; rewrite El, map_app; apply in_or_app; right; left; reflexivity).
  destruct (ids_pos (q := i) (iv_rc _ _ _ _ _ _ _ H)) as [A B]; [apply in_or_app; auto|]. split; apply Nat.eqb_neq; assumption.
Qed.
Lemma visit_R {s t} : Inv s t -> forall q p fuel, elems t = p ++ q -> length q < fuel -> visit K V fuel R (fid q) s = Some (map snd q, s).
Proof.
  intro H. induction q as [|[i [k v]] q IH]; intros p fuel El Hf; (destruct fuel as [|f]; [lia|]); cbn [visit]; [reflexivity|].
  change (fid ((i, (k, v)) :: q)) with i. destruct (hdr_entry _ _ _ _ _ H El) as [-> _]. destruct (rd_entry _ _ _ _ _ _ _ _ _ _ H El) as (n & Hn & Hk & Hv).
  rewrite (bind_run (rd_run Hn)). rewrite (bind_run (increment_R _ _ _ _ _ H El)). cbn [length] in Hf.
  rewrite (bind_run (IH (p ++ [(i, (k, v))]) f ltac:(rewrite <- app_assoc; exact El) ltac:(lia))). unfold ret. rewrite Hk, Hv. reflexivity.
Qed.
Lemma visit_L {s t} : Inv s t -> forall p q fuel, elems t = p ++ q -> length p < fuel -> visit K V fuel L (lid p) s = Some (rev (map snd p), s).
Proof.
  intro H. intro p. induction p as [|[i [k v]] p IH] using rev_ind; intros q fuel El Hf; (destruct fuel as [|f]; [lia|]); cbn [visit]; [reflexivity|].
  rewrite lid_snoc. cbn [fst]. rewrite <- app_assoc in El. cbn [app] in El. destruct (hdr_entry _ _ _ _ _ H El) as [-> _]. destruct (rd_entry _ _ _ _ _ _ _ _ _ _ H El) as (n & Hn & Hk & Hv).
  rewrite (bind_run (rd_run Hn)). rewrite (bind_run (increment_L _ _ _ _ _ H El)). rewrite app_length in Hf. cbn [length] in Hf.
  rewrite (bind_run (IH _ f El ltac:(lia))). unfold ret. rewrite Hk, Hv, map_app, rev_app_distr. reflexivity.
Qed.
Lemma Inv_len {s t} : Inv s t -> length (elems t) + 2 <= next K V s.
Proof. intro H. pose proof (RC_size (iv_rc _ _ _ _ _ _ _ H)) as Sz. unfold RbHeap.ids in Sz. rewrite map_length in Sz. unfold RbTree.entry in *. cbn [RbHeap.cids length] in Sz. lia. Qed.
Lemma begin_run {s t} : Inv s t -> begin_ K V s = Some (fid (elems t), s).
Proof. intro H. unfold begin_, hdr. rewrite (bind_run (rd_run (rc_hdr _ _ _ _ _ _ _ _ _ (iv_rc _ _ _ _ _ _ _ H)))). reflexivity. Qed.
Lemma rbegin_run {s t} : Inv s t -> rbegin K V s = Some (lid (elems t), s).
Proof. intro H. unfold rbegin, hdr. rewrite (bind_run (rd_run (rc_hdr _ _ _ _ _ _ _ _ _ (iv_rc _ _ _ _ _ _ _ H)))). reflexivity. Qed.
Lemma iterate_run {s t} : Inv s t -> iterate K V s = Some (map snd (elems t), s).
Proof.
  intro H. unfold iterate. rewrite (bind_run (begin_run H)). rewrite (bind_run (eq_refl : get_fuel K V s = Some (next K V s, s))). pose proof (Inv_len H). apply (visit_R H (elems t) []); [reflexivity|lia].
Qed.
Lemma iterate_reverse_run {s t} : Inv s t -> iterate_reverse K V s = Some (rev (map snd (elems t)), s).
Proof.
  intro H. unfold iterate_reverse. rewrite (bind_run (rbegin_run H)). rewrite (bind_run (eq_refl : get_fuel K V s = Some (next K V s, s))). pose proof (Inv_len H). apply (visit_L H (elems t) []); [rewrite app_nil_r; reflexivity|lia].
Qed.
(** inorderTraversal *)
Fixpoint todo (s : st) (stk : list nat) (w : list (K * V * tree)) : Prop :=
  match stk, w with
  | [], [] => True
  | i :: stk', (k, v, r) :: w' => i <> 0 /\ (exists n, heap s i = Some n /\ nkey K V n = k /\ nval K V n = v /\ nright K V n = pid r) /\ rep K V (heap s) i r /\ (forall j, In j (ids r) -> j <> 0) /\ todo s stk' w'
  | _, _ => False
  end.
Definition total (w : list (K * V * tree)) : list (K * V) := flat_map (fun e => fst e :: map snd (elems (snd e))) w.
Lemma push_run s : forall t par stk w g, rep K V (heap s) par t -> (forall j, In j (ids t) -> j <> 0) -> todo s stk w -> length (elems t) < g ->
  exists stk' w', push_left K V g (pid t) stk s = Some (stk', s) /\ todo s stk' w' /\ total w' = map snd (elems t) ++ total w.
Proof.
  induction t as [|c l IHl i k v r _]; intros par stk w g Hr Hz Ht Hg; (destruct g as [|g]; [lia|]); cbn [push_left RbHeap.pid].
  - exists stk, w. auto.
  - rewrite ids_T in Hz. assert (Zi : null i = false) by (apply Nat.eqb_neq; apply Hz; apply in_or_app; right; left; reflexivity). rewrite Zi. cbn [RbHeap.rep] in Hr. destruct Hr as (A & B & C).
    rewrite (bind_run (rd_run A)). cbn [nleft]. cbn [RbTree.elems] in Hg. rewrite app_length in Hg. cbn [length] in Hg.
    destruct (IHl i (i :: stk) ((k, v, r) :: w) g B) as (stk' & w' & R' & T' & E').
    { intros j Hj. apply Hz. apply in_or_app. auto. }
    { cbn [todo]. split; [apply Hz; apply in_or_app; right; left; reflexivity|]. split; [eexists; split; [exact A|auto]|]. split; [exact C|]. split; [intros j Hj; apply Hz; apply in_or_app; right; right; exact Hj|exact Ht]. }
    { lia. }
    exists stk', w'. split; [exact R'|]. split; [exact T'|]. rewrite E'. cbn [total flat_map fst snd RbTree.elems]. rewrite map_app. cbn [map snd]. rewrite <- app_assoc. reflexivity.
Qed.
Lemma inorder_run s : forall n t par stk w fuel, length (elems t) + length (total w) = n -> rep K V (heap s) par t -> (forall j, In j (ids t) -> j <> 0) -> todo s stk w ->
  n < fuel -> n < next K V s -> inorder_loop K V fuel (pid t) stk s = Some (map snd (elems t) ++ total w, s).
Proof.
  induction n as [n IH] using lt_wf_ind; intros t par stk w fuel Hn Hr Hz Ht Hf Hx. destruct fuel as [|f]; [lia|]. cbn [inorder_loop].
  destruct (null (pid t) && match stk with [] => true | _ => false end) eqn:En.
  - apply andb_true_iff in En. destruct En as [E1 E2]. destruct stk; [|discriminate]. destruct w; [|contradiction]. destruct t as [|c l i k v r]; [reflexivity|].
    exfalso. apply Nat.eqb_eq in E1. cbn in E1. apply (Hz i); [rewrite ids_T; apply in_or_app; right; left; reflexivity|exact E1].
  - rewrite (bind_run (eq_refl : get_fuel K V s = Some (next K V s, s))). destruct (push_run s t par stk w (next K V s) Hr Hz Ht ltac:(lia)) as (stk' & w' & R' & T' & E'). rewrite (bind_run R').
    destruct stk' as [|i stk'], w' as [|[[k v] r] w']; try contradiction.
    + exfalso. cbn in E'. symmetry in E'. apply app_eq_nil in E'. destruct E' as [X Y]. apply map_eq_nil in X. destruct t as [|c l i k v r]; [|exact (elems_ne K V (T c l i k v r) ltac:(discriminate) X)].
      destruct w as [|[[? ?] ?] ?]; [|discriminate]. destruct stk; [discriminate|contradiction].
    + cbn [todo] in T'. destruct T' as (Zi & (nn & Hi & Hk & Hv & Hright) & Rr & Zr & T'). rewrite (bind_run (rd_run Hi)). rewrite Hright.
      assert (Len : S (length (elems r) + length (total w')) = n).
      { apply (f_equal (@length _)) in E'. cbn [total flat_map fst snd] in E'. rewrite !app_length in E'. cbn [length] in E'. rewrite !map_length in E'. unfold total, RbTree.entry in *. lia. }
      rewrite (bind_run (IH (length (elems r) + length (total w')) ltac:(lia) r i stk' w' f eq_refl Rr Zr T' ltac:(lia) ltac:(lia))). unfold ret. rewrite Hk, Hv, <- E'. reflexivity.
Qed.
Lemma for_each_run {s t} : Inv s t -> for_each K V s = Some (map snd (elems t), s).
Proof.
  intro H. unfold for_each. rewrite (bind_run (eq_refl : get_root K V s = Some (root K V s, s))). rewrite (Inv_root _ _ _ _ _ H), (Inv_null _ _ _ _ _ H). destruct t as [|c l i k v r]; [reflexivity|].
  set (t := T c l i k v r) in *. rewrite (bind_run (eq_refl : get_fuel K V s = Some (next K V s, s))). pose proof (Inv_len H) as Le.
  rewrite (inorder_run s (length (elems t)) t 1 [] [] (next K V s)); [cbn; rewrite app_nil_r; reflexivity|cbn; lia|exact (rc_t _ _ _ _ _ _ _ _ _ (iv_rc _ _ _ _ _ _ _ H))| |exact I|lia|lia].
  intros j Hj. apply (ids_pos (q := j) (iv_rc _ _ _ _ _ _ _ H)). apply in_or_app. auto.
Qed.

Section O.
Hypothesis ord : total_order K eqb ltb.
(** bounds *)
Definition keep (stop : bool) (k : K) (e : entry K V) : bool := if stop then negb (ltb (ekey e) k) else ltb k (ekey e).
Lemma climb_right_run : forall ctx t s fuel a b, RC s ctx t a b -> t <> E -> length ctx < fuel ->
  exists x xn, climb_right K V fuel (pid t) s = Some (x, s) /\ heap s x = Some xn /\ npar K V xn = fid (aft ctx).
Proof.
  induction ctx as [|[e gc i gk gv x] ctx IH]; intros t s fuel a b H Ht Hf; (destruct fuel as [|f]; [lia|]); cbn [climb_right]; rewrite (bind_run (direction_run H (RC_nz H Ht))); cbn [cdir].
  - destruct t as [|c l p k v r]; [contradiction|]. exists p. eexists. split; [reflexivity|]. split; [exact (rd_focus H)|]. reflexivity.
  - destruct t as [|c l p k v r]; [contradiction|]. pose proof (rd_focus H) as Hp. cbn [RbHeap.pid]. destruct e.
    + exists p. eexists. split; [reflexivity|]. split; [exact Hp|]. reflexivity.
    + rewrite (bind_run (rd_run Hp)). cbn [npar RbHeap.cid fi RbTree.aft]. apply RC_up in H. cbn [length] in Hf. destruct (IH (fill K V (F R gc i gk gv x) (T c l p k v r)) s f a b H ltac:(discriminate) ltac:(lia)) as (y & yn & R1 & R2 & R3).
      exists y, yn. auto.
Qed.
Lemma filter_none (f : entry K V -> bool) (l : list (entry K V)) : (forall e, In e l -> f e = false) -> filter f l = [].
Proof. induction l as [|e l IH]; intro H; [reflexivity|]. cbn [filter]. rewrite H by (left; reflexivity). apply IH. intros g Hg. apply H. right. exact Hg. Qed.
Lemma filter_all (f : entry K V -> bool) (l : list (entry K V)) : (forall e, In e l -> f e = true) -> filter f l = l.
Proof. induction l as [|e l IH]; intro H; [reflexivity|]. cbn [filter]. rewrite H by (left; reflexivity). rewrite IH; [reflexivity|]. intros g Hg. apply H. right. exact Hg. Qed.
Lemma keep_lt stop k e : ltb k (ekey e) = true -> keep stop k e = true.
Proof. intro H. unfold keep. destruct stop; [|exact H]. rewrite (ltb_asym _ _ _ ord _ _ H). reflexivity. Qed.
Lemma keep_gt stop k e : ltb (ekey e) k = true -> keep stop k e = false.
Proof. intro H. unfold keep. destruct stop; [rewrite H; reflexivity|]. exact (ltb_asym _ _ _ ord _ _ H). Qed.
Lemma bound_from_run stop k : forall t fuel s ctx a b, RC s ctx t a b -> t <> E -> srt K V ltb (elems t) -> length (ids t) <= fuel ->
  bound_from K V eqb ltb stop fuel (pid t) k s = Some (fid (filter (keep stop k) (elems t) ++ aft ctx), s).
Proof.
  induction t as [|c l IHl i kk v r IHr]; intros fuel s ctx a b H Ht Hs Hf; [contradiction|].
  rewrite ids_T, app_length in Hf. cbn [length] in Hf. destruct fuel as [|f]; [lia|]. cbn [RbHeap.pid bound_from]. rewrite (bind_run (rd_run (rd_focus H))). cbn [nkey nleft nright].
  cbn [RbTree.elems] in *. apply srt_app in Hs. destruct Hs as (Sl & (Sr1 & Sr) & Slr). rewrite filter_app. cbn [filter].
  assert (Kl : forall e, In e (elems l) -> ltb (ekey e) kk = true) by (intros e He; exact (Slr e _ He (or_introl eq_refl))).
  assert (Kr : forall e, In e (elems r) -> ltb kk (ekey e) = true) by exact Sr1.
  destruct (stop && eqb k kk) eqn:Es.
  - apply andb_true_iff in Es. destruct Es as [-> Ek]. apply (to_eq _ _ _ ord) in Ek. subst kk. rewrite filter_none by (intros e He; apply keep_gt; auto). unfold keep. cbn [RbOps3.ekey snd fst]. rewrite (to_irr _ _ _ ord). reflexivity.
  - destruct (ltb k kk) eqn:Lt.
    + assert (Ki : keep stop k (i, (kk, v)) = true) by (apply keep_lt; exact Lt). rewrite Ki.
      rewrite (filter_all _ (elems r)) by (intros e He; apply keep_lt; apply (to_trans _ _ _ ord _ kk); auto).
      pose proof (child_L K V dk dv H) as Hl. rewrite (null_pid K V dk dv Hl). destruct l as [|lc ll li lk lv lr]; [reflexivity|].
      rewrite (IHl f s _ a b Hl ltac:(discriminate) Sl ltac:(lia)). cbn [RbTree.aft]. rewrite <- app_assoc. reflexivity.
    + assert (Gk : keep stop k (i, (kk, v)) = false).
      { unfold keep. cbn [RbOps3.ekey snd fst]. destruct stop; [|exact Lt]. cbn [andb] in Es. rewrite (ltb_ge _ _ _ ord _ _ Lt); [reflexivity|]. intros ->. rewrite (eqb_refl_ _ _ _ ord) in Es. discriminate. }
      rewrite Gk. assert (Fl : filter (keep stop k) (elems l) = []).
      { apply filter_none. intros e He. specialize (Kl e He). destruct (to_total _ _ _ ord kk k) as [X|[X|X]]; [apply keep_gt; exact (to_trans _ _ _ ord _ _ _ Kl X)|subst kk; apply keep_gt; exact Kl|congruence]. }
      rewrite Fl. cbn [app]. pose proof (child_R K V dk dv H) as Hl. rewrite (null_pid K V dk dv Hl). destruct r as [|lc ll li lk lv lr].
      * rewrite (bind_run (eq_refl : get_fuel K V s = Some (next K V s, s))).
        destruct (climb_right_run ctx _ s (next K V s) a b H ltac:(discriminate) (RC_fuel H)) as (x & xn & R1 & R2 & R3). cbn [RbHeap.pid] in R1. rewrite (bind_run R1). rewrite (bind_run (rd_run R2)). rewrite R3.
        assert (Nz : null (fid (aft ctx)) = false).
        { apply Nat.eqb_neq. destruct (aft ctx) as [|e es] eqn:Ea; [discriminate|]. pose proof (RC_elems_nd K V dk dv H) as _.
          assert (Hi : In (fst e) (ids (plug ctx (T c l i kk v E)))) by (unfold RbHeap.ids; rewrite elems_plug, !map_app, Ea; apply in_or_app; right; apply in_or_app; right; left; reflexivity).
          apply (ids_pos (q := fst e) (RC_all H)). apply in_or_app. auto. }
        rewrite Nz. reflexivity.
      * rewrite (IHr f s _ a b Hl ltac:(discriminate) Sr ltac:(lia)). reflexivity.
Qed.
Lemma bound_run stop k {s t} : Inv s t -> bound K V eqb ltb stop k s = Some (fid (filter (keep stop k) (elems t)), s).
Proof.
  intro H. unfold bound. rewrite (bind_run (eq_refl : get_root K V s = Some (root K V s, s))). rewrite (Inv_root _ _ _ _ _ H), (Inv_null _ _ _ _ _ H). destruct t as [|c l i kk v r]; [reflexivity|].
  rewrite (bind_run (eq_refl : get_fuel K V s = Some (next K V s, s))).
  rewrite (bound_from_run stop k _ (next K V s) s [] _ _ (iv_rc _ _ _ _ _ _ _ H) ltac:(discriminate) (iv_srt _ _ _ _ _ _ _ H) (Inv_fuel _ _ _ _ _ H)). cbn [RbTree.aft]. rewrite app_nil_r. reflexivity.
Qed.
Lemma filter_suffix stop k (l : list (entry K V)) : srt K V ltb l -> exists p, l = p ++ filter (keep stop k) l.
Proof.
  induction l as [|e l IH]; intro Hs; [exists []; reflexivity|]. cbn [srt] in Hs. destruct Hs as [H1 Hs]. cbn [filter]. destruct (keep stop k e) eqn:Ek.
  - exists []. cbn [app]. f_equal. symmetry. apply filter_all. intros f Hf. specialize (H1 f Hf). unfold lte in H1. unfold keep in *. destruct stop.
    + destruct (ltb (ekey f) k) eqn:Lf; [|reflexivity]. rewrite (to_trans _ _ _ ord _ _ _ H1 Lf) in Ek. discriminate.
    + exact (to_trans _ _ _ ord _ _ _ Ek H1).
  - destruct (IH Hs) as (p & Ep). exists (e :: p). cbn [app]. f_equal. exact Ep.
Qed.
(** erase through iterators *)
Lemma remove_entry {s t} p i k v q : Inv s t -> elems t = p ++ (i, (k, v)) :: q ->
  exists s' t', remove K V eqb ltb (next K V s) (root K V s) k s = Some (true, s') /\ Inv s' t' /\ elems t' = p ++ q.
Proof.
  intros H El. assert (Ht : t <> E) by (intros ->; destruct p; discriminate).
  pose proof (iv_srt _ _ _ _ _ _ _ H) as Hs. rewrite El in Hs. apply srt_app in Hs. destruct Hs as (_ & (_ & _) & Sp).
  assert (A : forall e, In e p -> ltb (ekey e) k = true) by (intros e He; exact (Sp e _ He (or_introl eq_refl))).
  destruct (remove_inv K V eqb ltb dk dv ord k H Ht) as [(N & _)|(s' & t' & p' & i' & v' & q' & R' & H' & El' & E' & A' & B')].
  - rewrite El, (look_hit K V eqb ltb ord) in N by exact A. discriminate.
  - exists s', t'. split; [exact R'|]. split; [exact H'|]. rewrite E'. rewrite El in El'. assert (i' = i).
    { assert (X : In (i', (k, v')) (p ++ (i, (k, v)) :: q)) by (rewrite El'; apply in_or_app; right; left; reflexivity). apply in_app_or in X. destruct X as [X|[X|X]].
      - specialize (A _ X). cbn in A. rewrite (to_irr _ _ _ ord) in A. discriminate.
      - congruence.
      - pose proof (iv_srt _ _ _ _ _ _ _ H) as Hs. rewrite El in Hs. apply srt_app in Hs. destruct Hs as (_ & (S1 & _) & _). specialize (S1 _ X). unfold lte in S1. cbn in S1. rewrite (to_irr _ _ _ ord) in S1. discriminate. }
    subst i'. pose proof (Inv_nd H) as Nd. rewrite El in Nd. symmetry in El'. destruct (split_unique _ _ _ _ _ _ _ El' Nd) as (-> & _ & ->). reflexivity.
Qed.
Lemma erase_it_run {s t} p i k v q : Inv s t -> elems t = p ++ (i, (k, v)) :: q -> exists s' t', erase_it K V eqb ltb i s = Some (fid q, s') /\ Inv s' t' /\ elems t' = p ++ q.
Proof.
  intros H El. unfold erase_it. destruct (hdr_entry _ _ _ _ _ H El) as [-> ->]. cbn [orb]. destruct (rd_entry _ _ _ _ _ _ _ _ _ _ H El) as (n & Hn & Hk & Hv). rewrite (bind_run (rd_run Hn)).
  rewrite (bind_run (increment_R _ _ _ _ _ H El)). rewrite (bind_run (eq_refl : get_root K V s = Some (root K V s, s))). rewrite (bind_run (eq_refl : get_fuel K V s = Some (next K V s, s))).
  destruct (remove_entry p i k v q H El) as (s' & t' & R' & H' & E'). rewrite Hk. rewrite (bind_run R'). exists s', t'. auto.
Qed.
Lemma erase_loop_run : forall m s t p q fuel, Inv s t -> elems t = p ++ m ++ q -> length m < fuel ->
  exists s' t', erase_loop K V eqb ltb fuel (fid (m ++ q)) (fid q) s = Some (fid q, s') /\ Inv s' t' /\ elems t' = p ++ q.
Proof.
  induction m as [|[i [k v]] m IH]; intros s t p q fuel H El Hf; (destruct fuel as [|f]; [lia|]); cbn [erase_loop].
  - cbn [app]. rewrite Nat.eqb_refl. exists s, t. auto.
  - change (fid (((i, (k, v)) :: m) ++ q)) with i. assert (El' : elems t = p ++ (i, (k, v)) :: m ++ q) by exact El. destruct (hdr_entry _ _ _ _ _ H El') as [Ni _].
    assert (Nq : Nat.eqb i (fid q) = false).
    { destruct q as [|e q]; [exact Ni|]. apply Nat.eqb_neq. change (fid (e :: q)) with (fst e). intro X. pose proof (Inv_nd H) as Nd. rewrite El', map_app in Nd. apply nd_app in Nd. destruct Nd as (_ & Nd & _).
      cbn [map fst] in Nd. inversion Nd as [|? ? Nn _]; subst. apply Nn. rewrite map_app. apply in_or_app. right. left. reflexivity. }
    rewrite Nq. destruct (rd_entry _ _ _ _ _ _ _ _ _ _ H El') as (n & Hn & Hk & Hv). rewrite (bind_run (rd_run Hn)). rewrite (bind_run (increment_R _ _ _ _ _ H El')).
    rewrite (bind_run (eq_refl : get_root K V s = Some (root K V s, s))). rewrite (bind_run (eq_refl : get_fuel K V s = Some (next K V s, s))).
    destruct (remove_entry p i k v _ H El') as (s' & t' & R' & H' & E'). rewrite Hk. rewrite (bind_run R'). apply (IH s' t' p q f H' E'). cbn [length] in Hf. lia.
Qed.
Lemma erase_range_run {s t} p m q : Inv s t -> elems t = p ++ m ++ q ->
  exists s' t', erase_range K V eqb ltb (fid (m ++ q)) (fid q) s = Some (fid q, s') /\ Inv s' t' /\ elems t' = p ++ q.
Proof.
  intros H El. unfold erase_range. rewrite (bind_run (begin_run H)). pose proof (Inv_len H) as Le. rewrite El, !app_length in Le.
  destruct (Nat.eqb (fid (m ++ q)) (fid (elems t)) && Nat.eqb (fid q) hdr) eqn:Eb.
  - apply andb_true_iff in Eb. destruct Eb as [E1 E2]. apply Nat.eqb_eq in E1, E2.
    assert (Eq : q = []).
    { destruct q as [|[i [k v]] q]; [reflexivity|]. exfalso. assert (El' : elems t = (p ++ m) ++ (i, (k, v)) :: q) by (rewrite <- app_assoc; exact El). destruct (hdr_entry _ _ _ _ _ H El') as [X _]. change (fid ((i, (k, v)) :: q)) with i in E2. rewrite E2 in X. discriminate. }
    subst q. rewrite app_nil_r in *. assert (Ep : p = []).
    { destruct p as [|e p]; [reflexivity|]. exfalso. rewrite El in E1. change (fid ((e :: p) ++ m)) with (fst e) in E1. destruct m as [|e' m].
      - destruct e as [i [k v]]. assert (El' : elems t = [] ++ (i, (k, v)) :: p ++ []) by exact El. destruct (hdr_entry _ _ _ _ _ H El') as [X _]. change (fid []) with hdr in E1. cbn in E1. subst i. discriminate.
      - change (fid (e' :: m)) with (fst e') in E1. pose proof (Inv_nd H) as Nd. rewrite El in Nd. cbn in Nd. inversion Nd as [|? ? Nn _]; subst. apply Nn. rewrite map_app. apply in_or_app. right. left. exact E1. }
    subst p. destruct (clear_run K V dk dv (iv_rc _ _ _ _ _ _ _ H)) as (s' & R' & H' & C' & _). rewrite (bind_run R'). exists s', E. split; [reflexivity|]. split; [|reflexivity].
    constructor; [exact H'|exact C'|exists 0; constructor|exact I].
  - rewrite (bind_run (eq_refl : get_fuel K V s = Some (next K V s, s))). apply (erase_loop_run m s t p q (next K V s) H El). lia.
Qed.
End O.
End H.
