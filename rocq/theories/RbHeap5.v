(** Unlinking, linking, the header and the release of the nodes. *)
From Verif Require Import Prelude RbModel RbTree RbHeap RbHeap2 RbHeap3 RbHeap4.
Arguments mr_noop {K V dk dv s ctx c l i k v r a b} _.
Arguments RC_fuel {K V dk dv s ctx t a b} _.
Arguments RC_size {K V dk dv s ctx t a b} _.
Arguments RC_down {K V dk dv s ctx rctx c l n k v t a b}.
Arguments RC_nz {K V dk dv s ctx t a b} _ _.
Arguments RC_sib {K V dk dv s d c i k v x ctx t a b} _.
Arguments RC_sib' {K V dk dv s d c i k v x ctx t a b} _.
Arguments swap_run {K V dk dv s ctx c l n k v rctx c2 m mk mv mr a b} _ _.
Arguments rd_node {K V dk dv s ctx d c x i k v y a b} _.

Section H.
Variables (K V : Type) (dk : K) (dv : V).
Notation tree := (tree K V).
Notation frame := (frame K V).
Notation st := (RbModel.st K V).
Notation RC := (RC K V dk dv).
Notation pid := (pid K V).
Notation cid := (cid K V).
Notation ids := (ids K V).
Notation cids := (cids K V).
Notation rep := (rep K V).
Notation repc := (repc K V).
Notation rid := (rid K V).
Notation plug := (plug K V).
Notation keeps := (keeps K V).
Notation bind := (bind K V).
Notation heap := (heap K V).
Notation mkN := (mkN K V).
Notation mkF := (mkF K V).
Notation put := (put K V).
Notation elems := (elems K V).
Notation bef := (bef K V).
Notation aft := (aft K V).
Notation node := (node K V).
Implicit Types (t l r : tree) (ctx : list frame) (s : st).

(** a leaf is deleted and its parent's link cleared *)
Lemma drop_leaf {s d gc pi pk pv x ctx c p k v a b} : RC s (F d gc pi pk pv x :: ctx) (T c E p k v E) a b ->
  exists s', bind (del K V p) (fun _ => wr K V pi (w_child K V d 0)) s = Some (tt, s') /\ RC s' (F d gc pi pk pv x :: ctx) E a b /\ keeps s s'.
Proof.
  intro H. pose proof (rd_focus H) as Ap. pose proof (rd_parent H) as Aq. cbn [RbHeap.pid] in *.
  pose proof (fun q => ids_pos (q := q) H) as Pos. destruct H as [H1 H2 H3 H4 H5 H6 H7 H8]. cbn in H3, H4, H7, Pos. cbn [RbHeap.repc RbHeap.pid] in H1. destruct H1 as (_ & Rx & Rc).
  inversion H3 as [|? ? Np Nd]; subst. inversion Nd as [|? ? Nq Nd2]; subst. cbn in Np. rewrite in_app_iff in Np, Nq.
  assert (Npq : pi <> p) by (intros ->; tauto).
  unfold RbModel.bind, del. rewrite Ap. unfold wr. cbn [RbModel.heap root cnt next]. rewrite put_neq by exact Npq. rewrite Aq.
  eexists. split; [reflexivity|]. split; [|split; reflexivity]. rewrite wchild_d.
  destruct (Pos p) as [_ P1]; [auto|]. destruct (Pos pi) as [_ Q1]; [auto|].
  constructor; cbn [RbModel.heap root next].
  - cbn [RbHeap.repc RbHeap.pid]. split; [apply put_eq|]. split; [apply rep_put; [tauto|apply rep_put; [tauto|exact Rx]]|apply repc_put; [tauto|apply repc_put; [tauto|exact Rc]]].
  - exact I.
  - cbn. exact Nd.
  - cbn. intros q Hq. apply H4. auto.
  - exact H5.
  - rewrite !put_neq by congruence. exact H6.
  - intros q n Hq. unfold RbModel.put in Hq. destruct (Nat.eqb_spec q pi) as [->|Q2]; [right; cbn; auto|]. destruct (Nat.eqb_spec q p) as [->|Q3]; [discriminate|].
    destruct (H7 q n Hq) as [|[->|Hi]]; [auto|congruence|]. right. exact Hi.
  - exact H8.
Qed.
Lemma unlink_leaf_run {s f ctx c p k v a b ctx2} : RC s (f :: ctx) (T c E p k v E) a b ->
  match c with Red => ctx2 = f :: ctx | Black => rem_fix K V (f :: ctx) = Some ctx2 end ->
  exists s', unlink_leaf K V p s = Some (tt, s') /\ RC s' ctx2 E a b /\ keeps s s'.
Proof.
  intros H Hc. unfold unlink_leaf. pose proof (pid_nz H) as Zp. pose proof (is_root_run H Zp) as Ir. cbn [RbHeap.pid] in Ir. rewrite (bind_run Ir). cbn [negb].
  rewrite (bind_run (check_true K V s)). rewrite (bind_run (rd_run (rd_focus H))). unfold is_black, is_red. cbn [ncol].
  assert (W : exists s1, (if negb match c with Red => true | Black => false end then bind (get_fuel K V) (fun f0 => maintain_after_remove K V f0 p) else ret K V tt) s = Some (tt, s1) /\
     RC s1 ctx2 (T c E p k v E) a b /\ keeps s s1 /\ ctx2 <> []).
  { destruct c; cbn [negb].
    - subst ctx2. exists s. split; [reflexivity|]. split; [exact H|]. split; [apply keeps_refl|discriminate].
    - rewrite (bind_run (eq_refl : get_fuel K V s = Some (next K V s, s))).
      destruct (mar_run K V dk dv _ _ _ _ _ _ _ _ _ _ _ (RC_fuel H) H Hc) as (s1 & R1 & H1 & K1). exists s1. split; [exact R1|]. split; [exact H1|]. split; [exact K1|].
      intros ->. destruct (rem_fix_elems K V _ _ Hc) as [B A]. cbn in A, B. destruct f as [[] fc0 fi0 fk0 fv0 fs0]; [discriminate|].
      symmetry in B. apply app_eq_nil in B. destruct B as [_ B]. apply app_eq_nil in B. destruct B. discriminate. }
  destruct W as (s1 & R1 & H1 & K1 & N1). rewrite (bind_run R1). destruct ctx2 as [|[d gc pi pk pv x] ctx2]; [contradiction|].
  pose proof (direction_run H1 Zp) as D. cbn [RbHeap.pid cdir] in D. rewrite (bind_run D).
  rewrite (bind_run (rd_run (rd_focus H1))). cbn [npar RbHeap.cid fi]. rewrite (bind_run (rd_run (rd_parent H1))).
  replace (match d with L => L | R => R end) with d by (destruct d; reflexivity). rewrite nchild_d. cbn [RbHeap.pid].
  destruct (drop_leaf H1) as (s2 & R2 & H2 & K2). exists s2. split; [exact R2|]. split; [exact H2|]. eapply keeps_trans; eassumption.
Qed.

(** a black node with one (red) child is replaced by it *)
Lemma unlink_single_run {s ctx d p k v x q qk qv y a b} : RC s ctx (node d Black E p k v (T Red x q qk qv y)) a b ->
  exists s', unlink_single K V p s = Some (tt, s') /\ RC s' ctx (T Black x q qk qv y) a b /\ keeps s s'.
Proof.
  intro H. pose proof (rd_node H) as Ap. pose proof (RC_nz H (node_nz _ _)) as Zp. pose proof (direction_run H Zp) as Dp. rewrite pid_node in Dp, Zp.
  assert (P : Permutation (ids (node d Black E p k v (T Red x q qk qv y)) ++ cids ctx) (p :: q :: ids x ++ ids y ++ cids ctx)).
  { rewrite ids_node, ids_T. cbn [RbHeap.ids elems map app]. apply perm_skip. rewrite <- app_assoc. cbn [app]. rewrite <- Permutation_middle. reflexivity. }
  assert (P' : Permutation (ids (T Black x q qk qv y) ++ cids ctx) (q :: ids x ++ ids y ++ cids ctx)).
  { rewrite ids_T, <- app_assoc. cbn [app]. rewrite <- Permutation_middle. reflexivity. }
  assert (Pos : forall z, In z (p :: q :: ids x ++ ids y ++ cids ctx) -> z <> 0 /\ z <> 1).
  { intros z Hz. apply (ids_pos H). apply (Permutation_in _ (Permutation_sym P)). exact Hz. }
  destruct H as [H1 H2 H3 H4 H5 H6 H7 H8]. rewrite pid_node in H1, H5, H6. apply rep_node in H2. destruct H2 as (_ & _ & Aq & Rx & Ry).
  apply (Permutation_NoDup P) in H3. inversion H3 as [|? ? Np Nd]; subst. inversion Nd as [|? ? Nq Nd2]; subst.
  destruct (nd_app _ _ Nd2) as (_ & Nd3 & Dx). destruct (nd_app _ _ Nd3) as (_ & Nc & Dy).
  cbn in Np. rewrite !in_app_iff in Np, Nq. assert (Npq : p <> q) by (intros ->; tauto).
  assert (O : p <> 1 /\ q <> 1 /\ ~ In 1 (ids x) /\ ~ In 1 (ids y) /\ ~ In 1 (cids ctx)).
  { split; [apply (Pos p); cbn; auto|]. split; [apply (Pos q); cbn; auto|]. repeat split; intro X; destruct (Pos 1) as [_ Y]; try congruence; cbn; rewrite !in_app_iff; auto 8. }
  destruct O as (Op & Oq & Ox & Oy & Oc). assert (Zq : q <> 0) by (apply Pos; cbn; auto).
  unfold unlink_single. rewrite (bind_run (rd_run Ap)). cbn [RbHeap.pid].
  assert (C1 : null (nleft K V (mkF d Black (cid ctx) 0 q k v)) || null (nright K V (mkF d Black (cid ctx) 0 q k v)) = true) by (destruct d; cbn; [reflexivity|apply orb_true_r]).
  rewrite C1. rewrite (bind_run (check_true K V s)).
  assert (C2 : (if null (nleft K V (mkF d Black (cid ctx) 0 q k v)) then nright K V (mkF d Black (cid ctx) 0 q k v) else nleft K V (mkF d Black (cid ctx) 0 q k v)) = q).
  { destruct d; cbn; [reflexivity|]. unfold null. apply Nat.eqb_neq in Zq. rewrite Zq. reflexivity. }
  rewrite C2. unfold is_black at 1. unfold is_red at 1. rewrite ncol_F, npar_F. rewrite (bind_run Dp).
  destruct (relink_run K V dk dv s ctx p q a b H1 Nc Oc H5 H6) as (s2 & R2 & C3 & T2 & Hh2 & E2 & D2 & K2).
  unfold relink in R2. rewrite (bind_run R2).
  assert (Aq2 : heap s2 q = Some (mkN Red p (pid x) (pid y) qk qv)) by (rewrite E2; [exact Aq|exact Oq|tauto]).
  assert (Ap2 : heap s2 p = Some (mkF d Black (cid ctx) 0 q k v)) by (rewrite E2; [exact Ap|exact Op|tauto]).
  rewrite (bind_run (rd_run Aq2)). cbn [npar].
  unfold RbModel.bind, del. rewrite Ap2. unfold wr at 1. cbn [RbModel.heap root cnt next]. rewrite put_neq by congruence. rewrite Aq2. cbn [negb].
  unfold rd. cbn [RbModel.heap]. rewrite put_eq. cbn [is_red ncol w_par]. unfold wr. cbn [RbModel.heap root cnt next]. rewrite put_eq.
  eexists. split; [reflexivity|]. destruct K2 as [K21 K22]. split; [|split; cbn; assumption]. cbn [w_par w_col ncol npar nleft nright nkey nval].
  constructor; cbn [RbModel.heap root next].
  - cbn [RbHeap.pid]. apply (repc_ext _ _ (heap s2)); [|exact C3]. intros z Hz. rewrite !put_neq; [reflexivity| | |]; intros ->; tauto.
  - cbn [RbHeap.rep]. split; [apply put_eq|].
    split; (apply (rep_ext _ _ (heap s)); [|eassumption]); intros z Hz; rewrite !put_neq by (intros ->; tauto); apply E2; try (intros ->; tauto).
    + intro X. apply (Dx z Hz). apply in_or_app. auto.
    + exact (Dy z Hz).
  - apply (Permutation_NoDup (Permutation_sym P')). exact Nd.
  - intros z Hz. rewrite K22. apply H4. apply (Permutation_in _ (Permutation_sym P)). right. apply (Permutation_in _ P'). exact Hz.
  - exact T2.
  - cbn [RbHeap.pid]. rewrite !put_neq by congruence. exact Hh2.
  - intros z n Hz. unfold RbModel.put in Hz.
    assert (Iq : In q (ids (T Black x q qk qv y) ++ cids ctx)) by (apply (Permutation_in _ (Permutation_sym P')); left; reflexivity).
    destruct (Nat.eqb_spec z q) as [->|Z1]; [auto|]. destruct (Nat.eqb_spec z p) as [->|Z2]; [discriminate|].
    destruct (D2 z n Hz) as (n' & Hn'). destruct (H7 z n' Hn') as [|Hi]; [auto|]. right. apply (Permutation_in _ (Permutation_sym P')).
    apply (Permutation_in _ P) in Hi. destruct Hi as [->|Hi]; [congruence|exact Hi].
  - lia.
Qed.

(** a new node below the focus *)
Lemma link_leaf {s d gc pi pk pv x ctx a b} k v : RC s (F d gc pi pk pv x :: ctx) E a b ->
  exists s1 s2 s3, new K V (fresh_node K V k v) s = Some (next K V s, s1) /\ wr K V pi (w_child K V d (next K V s)) s1 = Some (tt, s2) /\
    wr K V (next K V s) (w_par K V pi) s2 = Some (tt, s3) /\ RC s3 (F d gc pi pk pv x :: ctx) (T Red E (next K V s) k v E) a b /\ cnt K V s3 = cnt K V s.
Proof.
  intro H. pose proof (rd_parent H) as Aq. cbn [RbHeap.pid] in *.
  assert (Fr : forall q, In q (ids E ++ cids (F d gc pi pk pv x :: ctx)) -> q <> next K V s) by (intros q Hq; apply (rc_rng _ _ _ _ _ _ _ _ _ H) in Hq; lia).
  pose proof (fun q => ids_pos (q := q) H) as Pos. destruct H as [H1 H2 H3 H4 H5 H6 H7 H8]. cbn in H3, H4, H7, Pos, Fr. cbn [RbHeap.repc RbHeap.pid] in H1. destruct H1 as (_ & Rx & Rc).
  inversion H3 as [|? ? Nq Nd2]; subst. rewrite in_app_iff in Nq.
  assert (Npq : pi <> next K V s) by (apply Fr; auto). destruct (Pos pi) as [_ Q1]; [auto|]. assert (N1 : next K V s <> 1) by lia.
  set (p := next K V s) in *.
  eexists. exists (mkS K V (put (put (heap s) p (Some (fresh_node K V k v))) pi (Some (mkF d gc (cid ctx) p (pid x) pk pv))) (root K V s) (cnt K V s) (S p)).
  eexists. split; [reflexivity|].
  split; [unfold wr; cbn [RbModel.heap root cnt next]; fold p; rewrite put_neq by exact Npq; rewrite Aq, wchild_d; reflexivity|].
  split; [unfold wr; cbn [RbModel.heap root cnt next]; rewrite put_neq by congruence; rewrite put_eq; reflexivity|].
  split; [|reflexivity]. cbn [fresh_node w_par ncol npar nleft nright nkey nval].
  assert (Fi : forall q, In q (ids x) \/ In q (cids ctx) -> q <> p) by (intros q Hq; apply Fr; rewrite in_app_iff; auto).
  constructor; cbn [RbModel.heap root next].
  - cbn [RbHeap.repc RbHeap.pid]. split; [rewrite put_neq by exact Npq; apply put_eq|].
    split; [apply (rep_ext _ _ (heap s)); [|exact Rx]|apply (repc_ext _ _ (heap s)); [|exact Rc]]; intros q Hq; rewrite !put_neq; auto; intros ->; tauto.
  - cbn. split; [|auto]. rewrite put_eq. reflexivity.
  - cbn. constructor; [|exact H3]. intro X. exact (Fr p X eq_refl).
  - cbn. intros q [<-|Hq]; [lia|]. specialize (H4 q Hq). lia.
  - exact H5.
  - rewrite !put_neq by congruence. exact H6.
  - intros q n Hq. unfold RbModel.put in Hq. cbn. destruct (Nat.eqb_spec q p) as [->|Q2]; [auto|]. destruct (Nat.eqb_spec q pi) as [->|Q3]; [auto|].
    destruct (H7 q n Hq) as [|Hi]; auto.
  - lia.
Qed.
Lemma first_node_run {s a b} k v : RC s [] E a b ->
  exists s', first_node K V k v s = Some (next K V s, s') /\ RC s' [] (T Black E (next K V s) k v E) (next K V s) (next K V s) /\ cnt K V s' = S (cnt K V s).
Proof.
  intro H. destruct H as [H1 H2 H3 H4 H5 H6 H7 H8]. cbn in H5, H6, H7. assert (N1 : 1 <> next K V s) by lia.
  unfold first_node, RbModel.bind, new, set_root, get_cnt, set_cnt, ret, fresh_node, wr, hdr. cbn [RbModel.heap root cnt next].
  repeat (first [rewrite put_eq|rewrite put_neq by congruence|rewrite H6]; cbn [w_par w_col w_child ncol npar nleft nright nkey nval RbModel.heap root cnt next]).
  eexists. split; [reflexivity|]. split; [|reflexivity].
  constructor; cbn [RbModel.heap root next].
  - exact I.
  - cbn. split; [|auto]. repeat first [rewrite put_eq|rewrite put_neq by congruence]. reflexivity.
  - cbn. constructor; [tauto|constructor].
  - cbn. intros i [<-|[]]. lia.
  - reflexivity.
  - repeat first [rewrite put_eq|rewrite put_neq by congruence]. reflexivity.
  - intros q n Hq. cbn. unfold RbModel.put in Hq. destruct (Nat.eqb_spec q 1) as [->|Q1]; [auto|]. destruct (Nat.eqb_spec q (next K V s)) as [->|Q2]; [auto|].
    destruct (H7 q n Hq) as [|[]]; auto.
  - lia.
Qed.
End H.
