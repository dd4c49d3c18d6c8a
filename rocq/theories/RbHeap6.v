(** Releasing the nodes, the header links and the successor. *)
From Verif Require Import Prelude RbModel RbTree RbHeap RbHeap2 RbHeap3 RbHeap4 RbHeap5.

Section H.
Variables (K V : Type) (dk : K) (dv : V).
Notation tree := (tree K V).
Notation frame := (frame K V).
Notation st := (RbModel.st K V).
Notation RC := (RC K V dk dv).
Notation pid := (pid K V).
Notation cid := (cid K V).
Notation ids := (ids K V).
Notation cids := (cids K V).
Notation rep := (rep K V).
Notation repc := (repc K V).
Notation rid := (rid K V).
Notation plug := (plug K V).
Notation keeps := (keeps K V).
Notation bind := (bind K V).
Notation heap := (heap K V).
Notation mkN := (mkN K V).
Notation mkF := (mkF K V).
Notation put := (put K V).
Notation elems := (elems K V).
Notation bef := (bef K V).
Notation aft := (aft K V).
Notation node := (node K V).
Implicit Types (t l r : tree) (ctx : list frame) (s : st).

(** Node::release frees the whole subtree except its root *)
Lemma release_run : forall t s par fuel, t <> E -> rep (heap s) par t -> NoDup (ids t) -> (forall q, In q (ids t) -> 2 <= q) -> length (ids t) <= fuel ->
  exists s', release K V fuel (pid t) s = Some (tt, s') /\ (exists n, heap s' (pid t) = Some n) /\ (forall q, In q (ids t) -> q <> pid t -> heap s' q = None) /\
    (forall q, ~ In q (ids t) -> heap s' q = heap s q) /\ root K V s' = root K V s /\ keeps s s'.
Proof.
  induction t as [|c l IHl i k v r IHr]; intros s par fuel Ht Hr Nd Rng Hf; [contradiction|]. clear Ht.
  cbn [RbHeap.rep] in Hr. destruct Hr as (Ai & Rl & Rr). rewrite ids_T in Nd. rewrite ids_T in Rng. rewrite ids_T in Hf. rewrite app_length in Hf. cbn [length] in Hf.
  destruct (nd_app _ _ Nd) as (Nl & Nr & D1). inversion Nr as [|? ? Nir Nr']; subst.
  assert (Nil : ~ In i (ids l)) by (intro X; apply (D1 i X); left; reflexivity).
  assert (D2 : forall q, In q (ids l) -> ~ In q (ids r)) by (intros q Hq X; apply (D1 q Hq); right; exact X).
  destruct fuel as [|f]; [lia|]. cbn [RbHeap.pid release].
  destruct (wr_get K V (s := s) (p := i) (f := w_par K V 0) Ai) as (s1 & R1 & A1 & E1 & _ & T1 & K1). rewrite (bind_run R1).
  rewrite (bind_run (rd_run A1)). cbn [w_par nleft ncol npar nright nkey nval].
  (* the left subtree *)
  assert (W : exists s2, (if null (pid l) then ret K V tt else bind (if Nat.eqb (pid l) i then ret K V tt else bind (release K V f (pid l)) (fun _ => del K V (pid l))) (fun _ => wr K V i (w_child K V L 0))) s1 = Some (tt, s2) /\
     (exists n, heap s2 i = Some n /\ nright K V n = pid r) /\ (forall q, In q (ids l) -> heap s2 q = None) /\ (forall q, q <> i -> ~ In q (ids l) -> heap s2 q = heap s1 q) /\
     root K V s2 = root K V s1 /\ keeps s1 s2).
  { destruct l as [|lc ll li lk lv lr].
    - exists s1. split; [reflexivity|]. split; [eexists; split; [exact A1|reflexivity]|]. split; [intros q []|]. split; [auto|]. split; [reflexivity|apply keeps_refl].
    - set (l := T lc ll li lk lv lr) in *. assert (Hp : In (pid l) (ids l)) by (unfold l; rewrite ids_T; apply in_or_app; right; left; reflexivity).
      assert (Zl : null (pid l) = false) by (apply Nat.eqb_neq; specialize (Rng (pid l)); rewrite in_app_iff in Rng; specialize (Rng (or_introl Hp)); lia). rewrite Zl.
      assert (Ei : Nat.eqb (pid l) i = false) by (apply Nat.eqb_neq; intro X; rewrite X in Hp; tauto). rewrite Ei.
      destruct (IHl s1 i f) as (s2 & R2 & (n2 & A2) & F2 & E2 & T2 & K2).
      { discriminate. } { apply (rep_ext _ _ (heap s)); [|exact Rl]. intros q Hq. apply E1. intros ->. tauto. } { exact Nl. }
      { intros q Hq. apply Rng. apply in_or_app. auto. } { lia. }
      assert (A3 : put (heap s2) (pid l) None i = Some (mkN c 0 (pid l) (pid r) k v)) by (rewrite put_neq by (apply Nat.eqb_neq in Ei; congruence); rewrite E2 by exact Nil; exact A1).
      unfold RbModel.bind at 1 2. rewrite R2. unfold del. rewrite A2. unfold wr. cbn [RbModel.heap root cnt next]. rewrite A3.
      eexists. split; [reflexivity|]. cbn [RbModel.heap root cnt next].
      split; [eexists; split; [apply put_eq|reflexivity]|].
      split; [intros q Hq; rewrite put_neq by (intros ->; tauto); destruct (Nat.eq_dec q (pid l)) as [->|Q]; [apply put_eq|rewrite put_neq by exact Q; apply F2; assumption]|].
      split; [intros q Q Hq; rewrite !put_neq; [apply E2; exact Hq| |exact Q]; intros ->; tauto|]. split; [exact T2|exact K2]. }
  destruct W as (s2 & R2 & (n2 & A2 & N2) & F2 & E2 & T2 & K2). rewrite (bind_run R2). rewrite (bind_run (rd_run A2)). rewrite N2.
  assert (W : exists s3, (if null (pid r) then ret K V tt else if Nat.eqb (pid r) i then ret K V tt else bind (release K V f (pid r)) (fun _ => del K V (pid r))) s2 = Some (tt, s3) /\
     (forall q, In q (ids r) -> heap s3 q = None) /\ (forall q, ~ In q (ids r) -> heap s3 q = heap s2 q) /\ root K V s3 = root K V s2 /\ keeps s2 s3).
  { destruct r as [|rc rl ri rk rv rr].
    - exists s2. split; [reflexivity|]. split; [intros q []|]. split; [auto|]. split; [reflexivity|apply keeps_refl].
    - set (r := T rc rl ri rk rv rr) in *. assert (Hp : In (pid r) (ids r)) by (unfold r; rewrite ids_T; apply in_or_app; right; left; reflexivity).
      assert (Zr : null (pid r) = false) by (apply Nat.eqb_neq; specialize (Rng (pid r)); rewrite in_app_iff in Rng; specialize (Rng (or_intror (or_intror Hp))); lia). rewrite Zr.
      assert (Ei : Nat.eqb (pid r) i = false) by (apply Nat.eqb_neq; intro X; rewrite X in Hp; tauto). rewrite Ei.
      destruct (IHr s2 i f) as (s3 & R3 & (n3 & A3) & F3 & E3 & T3 & K3).
      { discriminate. }
      { apply (rep_ext _ _ (heap s)); [|exact Rr]. intros q Hq. rewrite E2; [apply E1|intros ->; tauto|intro X; exact (D2 q X Hq)]. intros ->. tauto. } { exact Nr'. }
      { intros q Hq. apply Rng. apply in_or_app. right. right. exact Hq. } { lia. }
      unfold RbModel.bind. rewrite R3. unfold del. rewrite A3. eexists. split; [reflexivity|]. cbn [RbModel.heap root cnt next].
      split; [intros q Hq; destruct (Nat.eq_dec q (pid r)) as [->|Q]; [apply put_eq|rewrite put_neq by exact Q; apply F3; assumption]|].
      split; [intros q Hq; rewrite put_neq; [apply E3; exact Hq|intros ->; tauto]|]. split; [exact T3|exact K3]. }
  destruct W as (s3 & R3 & F3 & E3 & T3 & K3). exists s3. split; [exact R3|].
  split; [exists n2; rewrite E3 by exact Nir; exact A2|].
  split; [|split; [|split; [congruence|eapply keeps_trans; [exact K1|eapply keeps_trans; eassumption]]]].
  - intros q Hq Q. rewrite ids_T in Hq. apply in_app_or in Hq. destruct Hq as [Hq|[<-|Hq]]; [|congruence|exact (F3 q Hq)]. rewrite E3 by (exact (D2 q Hq)). exact (F2 q Hq).
  - intros q Hq. rewrite ids_T, in_app_iff in Hq. cbn [In] in Hq. rewrite E3 by tauto. rewrite E2 by (try (intros ->); tauto). apply E1. intros ->. tauto.
Qed.
Lemma clear_run {s t a b} : RC s [] t a b -> exists s', clear K V s = Some (tt, s') /\ RC s' [] E 1 1 /\ cnt K V s' = 0 /\ next K V s' = next K V s.
Proof.
  intro H. destruct (header_run R 1 H) as (s1 & R1 & H1 & Kc1 & Kn1). destruct (header_run L 1 H1) as (s2 & R2 & H2 & Kc2 & Kn2). cbn [pick] in *.
  unfold clear, hdr. rewrite (bind_run R1), (bind_run R2).
  assert (Ro : root K V s2 = pid t) by exact (rc_root _ _ _ _ _ _ _ _ _ H2).
  rewrite (bind_run (eq_refl : get_root K V s2 = Some (root K V s2, s2))). rewrite Ro.
  pose proof (RC_size H2) as Sz. cbn [RbHeap.cids length] in Sz.
  destruct t as [|c l i k v r].
  - cbn [RbHeap.pid null Nat.eqb]. unfold RbModel.bind, ret, set_cnt. eexists. split; [reflexivity|]. split; [|split; cbn; congruence].
    destruct H2 as [G1 G2 G3 G4 G5 G6 G7 G8]. constructor; cbn; auto.
  - set (t := T c l i k v r) in *. pose proof (RC_nz H2 (ltac:(discriminate) : t <> E)) as Zt. destruct H2 as [G1 G2 G3 G4 G5 G6 G7 G8]. cbn [RbHeap.cids] in *. rewrite app_nil_r in *. cbn [RbHeap.rid RbHeap.cid] in *.
    assert (Zn : null (pid t) = false) by (apply Nat.eqb_neq; exact Zt). rewrite Zn.
    destruct (release_run t s2 1 (next K V s2)) as (s3 & R3 & (n3 & A3) & F3 & E3 & T3 & (K31 & K32)).
    { discriminate. } { exact G2. } { exact G3. } { intros q Hq. apply G4. exact Hq. } { lia. }
    assert (I1 : ~ In 1 (ids t)) by (intro X; apply G4 in X; lia). assert (Ht : In (pid t) (ids t)) by (apply pid_in; exact Zt).
    assert (N1 : pid t <> 1) by (intro X; rewrite X in Ht; tauto).
    unfold RbModel.bind, get_fuel, set_root, set_cnt. rewrite R3. unfold wr. rewrite E3 by exact I1. rewrite G6. cbn [RbModel.heap root cnt next].
    unfold del. cbn [RbModel.heap root cnt next]. rewrite put_neq by exact N1. rewrite A3. eexists. split; [reflexivity|]. cbn [w_par ncol npar nleft nright nkey nval].
    split; [|split; cbn; congruence].
    constructor; cbn [RbModel.heap root next].
    + exact I.
    + exact I.
    + constructor.
    + intros q [].
    + reflexivity.
    + rewrite put_neq by congruence. apply put_eq.
    + intros q n Hq. left. unfold RbModel.put in Hq. destruct (Nat.eqb_spec q (pid t)) as [->|Q]; [discriminate|]. destruct (Nat.eqb_spec q 1) as [->|Q1]; [reflexivity|].
      destruct (in_dec Nat.eq_dec q (ids t)) as [Hi|Hi]; [rewrite (F3 q Hi Q) in Hq; discriminate|]. rewrite (E3 q Hi) in Hq. destruct (G7 q n Hq); [assumption|contradiction].
    + lia.
Qed.
Lemma destroy_run {s t a b} : RC s [] t a b -> exists s', destroy K V s = Some (tt, s') /\ forall q, heap s' q = None.
Proof.
  intro H. destruct (clear_run H) as (s1 & R1 & H1 & _). unfold destroy, hdr. rewrite (bind_run R1).
  destruct (header_run R 0 H1) as (s2 & R2 & H2 & _). destruct (header_run L 0 H2) as (s3 & R3 & H3 & _). rewrite (bind_run R2), (bind_run R3).
  pose proof (rc_hdr _ _ _ _ _ _ _ _ _ H3) as Hh. unfold del. rewrite Hh. eexists. split; [reflexivity|]. cbn [RbModel.heap]. intro q.
  destruct (Nat.eq_dec q 1) as [->|Q]; [apply put_eq|]. rewrite put_neq by exact Q. destruct (heap s3 q) as [n|] eqn:Eq; [|reflexivity].
  destruct (rc_dom _ _ _ _ _ _ _ _ _ H3 q n Eq) as [|[]]. contradiction.
Qed.

(** first and last address, 1 (the header) if there is none *)
Definition fid (l : list (entry K V)) : nat := hd 1 (map fst l).
Definition lid (l : list (entry K V)) : nat := last (map fst l) 1.
Lemma lid_cons x (l m : list (entry K V)) : lid (l ++ x :: m) = lid (x :: m).
Proof.
  unfold lid. induction l as [|y l IH]; [reflexivity|]. cbn [app map] in *. rewrite <- IH. destruct l; reflexivity.
Qed.
Lemma lid_app (l m : list (entry K V)) : m <> [] -> lid (l ++ m) = lid m.
Proof. destruct m as [|x m]; [contradiction|]. intros _. apply lid_cons. Qed.
Lemma lid_snoc x (l : list (entry K V)) : lid (l ++ [x]) = fst x.
Proof. rewrite lid_cons. reflexivity. Qed.
Lemma fid_app (l m : list (entry K V)) : l <> [] -> fid (l ++ m) = fid l.
Proof. destruct l; [contradiction|reflexivity]. Qed.
Lemma fid_in (l : list (entry K V)) : l <> [] -> In (fid l) (map fst l).
Proof. destruct l; [contradiction|]. left. reflexivity. Qed.
Lemma lid_in (l : list (entry K V)) : l <> [] -> In (lid l) (map fst l).
Proof.
  intro H. destruct (exists_last H) as (l' & x & ->). rewrite lid_snoc, map_app. apply in_or_app. right. left. reflexivity.
Qed.
Lemma elems_ne t : t <> E -> elems t <> [].
Proof. destruct t; [contradiction|]. intros _ X. cbn in X. apply app_eq_nil in X. destruct X. discriminate. Qed.
Lemma descend_run d : forall t fuel s ctx a b, t <> E -> RC s ctx t a b -> length (ids t) <= fuel ->
  descend K V fuel d (pid t) s = Some (pick d (fid (elems t)) (lid (elems t)), s).
Proof.
  induction t as [|c l IHl i k v r IHr]; intros fuel s ctx a b Ht H Hf; [contradiction|].
  rewrite ids_T, app_length in Hf. cbn [length] in Hf. destruct fuel as [|f]; [lia|]. cbn [RbHeap.pid descend]. rewrite (bind_run (rd_run (rd_focus H))).
  destruct d; cbn [nchild nleft nright pick RbTree.elems].
  - destruct l as [|lc ll li lk lv lr]; [reflexivity|]. set (l := T lc ll li lk lv lr) in *.
    assert (Hl : RC s (F L c i k v r :: ctx) l a b) by (apply RC_fill; exact H).
    assert (Zl : null (pid l) = false) by (apply Nat.eqb_neq; apply (RC_nz Hl); discriminate). rewrite Zl.
    rewrite (IHl f s _ _ _ ltac:(discriminate) Hl) by lia. cbn [pick]. rewrite fid_app by (apply elems_ne; discriminate). reflexivity.
  - destruct r as [|rc rl ri rk rv rr]; [cbn [RbHeap.pid null Nat.eqb RbTree.elems]; rewrite lid_snoc; reflexivity|]. set (r := T rc rl ri rk rv rr) in *.
    assert (Hl : RC s (F R c i k v l :: ctx) r a b) by (apply RC_fill; exact H).
    assert (Zl : null (pid r) = false) by (apply Nat.eqb_neq; apply (RC_nz Hl); discriminate). rewrite Zl.
    rewrite (IHr f s _ _ _ ltac:(discriminate) Hl) by lia. cbn [pick]. rewrite lid_cons. change ((i, (k, v)) :: elems r) with ([(i, (k, v))] ++ elems r). rewrite (lid_app [(i, (k, v))]) by (apply elems_ne; discriminate). reflexivity.
Qed.
Lemma aft_cid ctx : bef ctx = [] -> fid (aft ctx) = cid ctx.
Proof.
  destruct ctx as [|[[] c i k v x] ctx]; cbn [RbTree.bef RbTree.aft RbHeap.cid fi]; [reflexivity|reflexivity|]. intro X. apply app_eq_nil in X. destruct X as [_ X]. apply app_eq_nil in X. destruct X. discriminate.
Qed.
Lemma bef_cid ctx : aft ctx = [] -> lid (bef ctx) = cid ctx.
Proof. destruct ctx as [|[[] c i k v x] ctx]; cbn [RbTree.bef RbTree.aft RbHeap.cid fi]; [reflexivity|discriminate|]. intros _. rewrite app_assoc, lid_snoc. reflexivity. Qed.
Lemma RC_elems_nd {s ctx t a b} : RC s ctx t a b -> NoDup (map fst (bef ctx ++ elems t ++ aft ctx)).
Proof.
  intro H. rewrite <- elems_plug. apply RC_all in H. pose proof (rc_nd _ _ _ _ _ _ _ _ _ H) as N. cbn [RbHeap.cids] in N. rewrite app_nil_r in N. exact N.
Qed.
Lemma update_end_L {s ctx c l p k v r a b} : RC s ctx (T c l p k v r) a b -> a = fid (bef ctx ++ elems (T c l p k v r) ++ aft ctx) ->
  exists s', update_end K V L p s = Some (tt, s') /\ RC s' ctx (T c l p k v r) (fid (bef ctx ++ (elems l ++ elems r) ++ aft ctx)) b /\ keeps s s'.
Proof.
  intros H Ha. pose proof (rc_hdr _ _ _ _ _ _ _ _ _ H) as Hh. unfold update_end, hdr. rewrite (bind_run (rd_run Hh)). cbn [nchild nleft opp].
  pose proof (RC_elems_nd H) as Nd. cbn [RbTree.elems] in Nd, Ha. rewrite !map_app in Nd. cbn [map fst] in Nd.
  destruct (Nat.eqb_spec a p) as [Eap|Nap].
  - assert (X : bef ctx = [] /\ elems l = []).
    { destruct (bef ctx ++ elems l) as [|e m] eqn:El; [apply app_eq_nil in El; exact El|]. exfalso.
      rewrite app_assoc in Ha. rewrite app_assoc in Ha. rewrite El in Ha. cbn in Ha. rewrite <- app_assoc in Nd. rewrite app_assoc, <- map_app, El in Nd. cbn in Nd. inversion Nd as [|? ? Ni _]; subst.
      apply Ni. apply in_or_app. right. left. congruence. }
    destruct X as [Xb Xl]. assert (l = E) by (destruct l; [reflexivity|cbn in Xl; apply app_eq_nil in Xl; destruct Xl; discriminate]). subst l.
    rewrite (bind_run (rd_run (rd_focus H))). cbn [nchild nright npar RbTree.elems]. rewrite Xb. cbn [app].
    destruct r as [|rc rl ri rk rv rr].
    + cbn [RbHeap.pid null Nat.eqb RbTree.elems app]. rewrite (aft_cid _ Xb). destruct (header_run L (cid ctx) H) as (s1 & R1 & H1 & Kp). exists s1. auto.
    + set (r := T rc rl ri rk rv rr) in *. assert (Hl : RC s (F R c p k v E :: ctx) r a b) by (apply RC_fill; exact H).
      assert (Zl : null (pid r) = false) by (apply Nat.eqb_neq; apply (RC_nz Hl); discriminate). rewrite Zl.
      rewrite (bind_run (eq_refl : get_fuel K V s = Some (next K V s, s))).
      pose proof (RC_size Hl) as Sz. rewrite (bind_run (descend_run L r (next K V s) s _ _ _ ltac:(discriminate) Hl ltac:(lia))). cbn [pick].
      rewrite fid_app by (apply elems_ne; discriminate). destruct (header_run L (fid (elems r)) H) as (s1 & R1 & H1 & Kp). exists s1. auto.
  - exists s. split; [reflexivity|]. split; [|apply keeps_refl].
    assert (Ea : fid (bef ctx ++ (elems l ++ elems r) ++ aft ctx) = a); [|rewrite Ea; exact H].
    destruct (bef ctx ++ elems l) as [|e m] eqn:El.
    + apply app_eq_nil in El. destruct El as [El1 El2]. rewrite El1, El2 in Ha. cbn in Ha. congruence.
    + rewrite !app_assoc in Ha |- *. rewrite El in Ha |- *. rewrite Ha. reflexivity.
Qed.
Lemma update_end_R {s ctx c l p k v r a b} : RC s ctx (T c l p k v r) a b -> b = lid (bef ctx ++ elems (T c l p k v r) ++ aft ctx) ->
  exists s', update_end K V R p s = Some (tt, s') /\ RC s' ctx (T c l p k v r) a (lid (bef ctx ++ (elems l ++ elems r) ++ aft ctx)) /\ keeps s s'.
Proof.
  intros H Ha. pose proof (rc_hdr _ _ _ _ _ _ _ _ _ H) as Hh. unfold update_end, hdr. rewrite (bind_run (rd_run Hh)). cbn [nchild nright opp].
  pose proof (RC_elems_nd H) as Nd. cbn [RbTree.elems] in Nd, Ha.
  assert (Er : bef ctx ++ (elems l ++ (p, (k, v)) :: elems r) ++ aft ctx = (bef ctx ++ elems l) ++ (p, (k, v)) :: elems r ++ aft ctx) by (rewrite <- !app_assoc; reflexivity).
  rewrite Er in Ha, Nd. rewrite lid_cons in Ha.
  destruct (Nat.eqb_spec b p) as [Eap|Nap].
  - assert (X : elems r = [] /\ aft ctx = []).
    { destruct (elems r ++ aft ctx) as [|e m] eqn:El; [apply app_eq_nil in El; exact El|]. exfalso.
      change ((p, (k, v)) :: e :: m) with ([(p, (k, v))] ++ e :: m) in Ha. rewrite lid_app in Ha by discriminate. pose proof (lid_in (e :: m) ltac:(discriminate)) as Hi. rewrite <- Ha, Eap in Hi.
      rewrite map_app in Nd. cbn [map fst] in Nd. apply NoDup_remove_2 in Nd. apply Nd. apply in_or_app. right. exact Hi. }
    destruct X as [Xr Xb]. assert (r = E) by (destruct r; [reflexivity|cbn in Xr; apply app_eq_nil in Xr; destruct Xr; discriminate]). subst r.
    rewrite (bind_run (rd_run (rd_focus H))). cbn [nchild nleft npar RbTree.elems]. rewrite Xb. rewrite !app_nil_r.
    destruct l as [|rc rl ri rk rv rr].
    + cbn [RbHeap.pid null Nat.eqb RbTree.elems app]. rewrite app_nil_r, (bef_cid _ Xb). destruct (header_run R (cid ctx) H) as (s1 & R1 & H1 & Kp). exists s1. auto.
    + set (l := T rc rl ri rk rv rr) in *. assert (Hl : RC s (F L c p k v E :: ctx) l a b) by (apply RC_fill; exact H).
      assert (Zl : null (pid l) = false) by (apply Nat.eqb_neq; apply (RC_nz Hl); discriminate). rewrite Zl.
      rewrite (bind_run (eq_refl : get_fuel K V s = Some (next K V s, s))).
      pose proof (RC_size Hl) as Sz. rewrite (bind_run (descend_run R l (next K V s) s _ _ _ ltac:(discriminate) Hl ltac:(lia))). cbn [pick].
      rewrite lid_app by (apply elems_ne; discriminate). destruct (header_run R (lid (elems l)) H) as (s1 & R1 & H1 & Kp). exists s1. auto.
  - exists s. split; [reflexivity|]. split; [|apply keeps_refl].
    assert (Ea : lid (bef ctx ++ (elems l ++ elems r) ++ aft ctx) = b); [|rewrite Ea; exact H].
    destruct (elems r ++ aft ctx) as [|e m] eqn:El.
    + cbn in Ha. congruence.
    + rewrite <- !app_assoc. rewrite El. rewrite app_assoc. rewrite lid_app by discriminate. change ((p, (k, v)) :: e :: m) with ([(p, (k, v))] ++ e :: m) in Ha. rewrite lid_app in Ha by discriminate. congruence.
Qed.

(** the in-order successor below the right child *)
Lemma successor_run : forall t s ctx a b par fuel, t <> E -> RC s ctx t a b -> length (ids t) <= fuel ->
  exists rctx c2 m mk mv mr, t = plug rctx (T c2 E m mk mv mr) /\ lefts K V rctx /\ successor_of K V fuel par (pid t) s = Some ((cidb K V par rctx, m), s).
Proof.
  induction t as [|c l IHl i k v r _]; intros s ctx a b par fuel Ht H Hf; [contradiction|].
  rewrite ids_T, app_length in Hf. cbn [length] in Hf. destruct fuel as [|f]; [lia|]. cbn [RbHeap.pid successor_of]. rewrite (bind_run (rd_run (rd_focus H))). cbn [nleft].
  destruct l as [|lc ll li lk lv lr].
  - exists [], c, i, k, v, r. split; [reflexivity|]. split; [constructor|reflexivity].
  - set (l := T lc ll li lk lv lr) in *. assert (Hl : RC s (F L c i k v r :: ctx) l a b) by (apply RC_fill; exact H).
    assert (Zl : null (pid l) = false) by (apply Nat.eqb_neq; apply (RC_nz Hl); discriminate). rewrite Zl.
    destruct (IHl s _ _ _ i f ltac:(discriminate) Hl ltac:(lia)) as (rctx & c2 & m & mk & mv & mr & El & Hls & Hr).
    exists (rctx ++ [F L c i k v r]), c2, m, mk, mv, mr. split; [rewrite plug_app, <- El; reflexivity|].
    split; [apply Forall_app; split; [exact Hls|repeat constructor]|]. rewrite Hr. destruct rctx; reflexivity.
Qed.
End H.
