(** maintainAfterRemove on the heap. *)
From Verif Require Import Prelude RbModel RbTree RbHeap RbHeap2.

Section H.
Variables (K V : Type) (dk : K) (dv : V).
Notation tree := (tree K V).
Notation frame := (frame K V).
Notation st := (RbModel.st K V).
Notation RC := (RC K V dk dv).
Notation pid := (pid K V).
Notation cid := (cid K V).
Notation keeps := (keeps K V).
Notation bind := (bind K V).
Notation check := (check K V).
Implicit Types (t l r y z u : tree) (ctx : list frame) (s : st).

Lemma check_true s : check true s = Some (tt, s).
Proof. reflexivity. Qed.
Lemma RC_nz {s ctx t a b} : RC s ctx t a b -> t <> E -> pid t <> 0.
Proof. intros H Ht. destruct t; [contradiction|]. exact (pid_nz H). Qed.
Lemma node_nz {d c x i k v y} : node K V d c x i k v y <> E.
Proof. destruct d; discriminate. Qed.
(** switching the focus to the sibling and back *)
Lemma RC_sib {s d c i k v x ctx t a b} : RC s (F d c i k v x :: ctx) t a b -> RC s (F (opp d) c i k v t :: ctx) x a b.
Proof. intro H. apply RC_up in H. apply RC_fill. unfold fill in *. cbn [fd fc fi fk fv fs] in *. rewrite node_opp. exact H. Qed.
Lemma RC_sib' {s d c i k v x ctx t a b} : RC s (F (opp d) c i k v t :: ctx) x a b -> RC s (F d c i k v x :: ctx) t a b.
Proof. intro H. apply RC_up in H. apply RC_fill. unfold fill in *. cbn [fd fc fi fk fv fs] in *. rewrite node_opp in H. exact H. Qed.
Lemma color_node {s ctx d c x i k v y a b} c' : RC s ctx (node K V d c x i k v y) a b ->
  exists s', wr K V i (w_col K V c') s = Some (tt, s') /\ RC s' ctx (node K V d c' x i k v y) a b /\ keeps s s'.
Proof. intro H. destruct d; exact (color_run c' H). Qed.
Lemma color_parent {s d c i k v x ctx t a b} c' : RC s (F d c i k v x :: ctx) t a b ->
  exists s', wr K V i (w_col K V c') s = Some (tt, s') /\ RC s' (F d c' i k v x :: ctx) t a b /\ keeps s s'.
Proof.
  intro H. apply RC_up in H. unfold fill in H. cbn [fd fc fi fk fv fs] in H. destruct (color_node c' H) as (s' & R & H' & Kp).
  exists s'. split; [exact R|]. split; [|exact Kp]. apply RC_fill. exact H'.
Qed.
Lemma rd_node {s ctx d c x i k v y a b} : RC s ctx (node K V d c x i k v y) a b -> heap K V s i = Some (mkF K V d c (cid ctx) (pid x) (pid y) k v).
Proof. intro H. destruct d; exact (rd_focus H). Qed.
Lemma black_or_null_run {s ctx t a b} : RC s ctx t a b -> black_or_null K V (pid t) s = Some (negb (tred K V t), s).
Proof.
  intro H. unfold black_or_null. destruct t as [|c l i k v r]; [reflexivity|]. cbn [RbHeap.pid].
  pose proof (pid_nz H) as Hz. apply Nat.eqb_neq in Hz. unfold null. rewrite Hz. rewrite (bind_run (rd_run (rd_focus H))). destruct c; reflexivity.
Qed.
Lemma ncol_F d c par p q k v : ncol K V (mkF K V d c par p q k v) = c.
Proof. destruct d; reflexivity. Qed.

Definition case5 (d : side) (p sibling close distant : nat) : M K V unit :=
  bind (black_or_null K V close) (fun cb => bind (check cb) (fun _ =>
  bind (rd K V distant) (fun dn => bind (check (is_red K V dn)) (fun _ =>
  bind (rd K V p) (fun n => bind (rotate_same K V (npar K V n) (DSide d)) (fun _ =>
  bind (rd K V p) (fun n => bind (rd K V (npar K V n)) (fun pn =>
  bind (wr K V sibling (w_col K V (ncol K V pn))) (fun _ => bind (wr K V (npar K V n) (w_col K V Black)) (fun _ => wr K V distant (w_col K V Black))))))))))).
Lemma case5_run {s d c i k v C si sk sv dl di dkk dvv dr ctx tc l p tk tv r a b} :
  RC s (F d c i k v (node K V d Black C si sk sv (T Red dl di dkk dvv dr)) :: ctx) (T tc l p tk tv r) a b -> tred K V C = false ->
  exists s', case5 d p si (pid C) di s = Some (tt, s') /\ RC s' (F d Black i k v C :: F d c si sk sv (T Black dl di dkk dvv dr) :: ctx) (T tc l p tk tv r) a b /\ keeps s s'.
Proof.
  intros H HC. set (t := T tc l p tk tv r) in *. set (D := T Red dl di dkk dvv dr) in *. unfold case5.
  pose proof (RC_sib H) as Hs.
  assert (Hc : RC s (F d Black si sk sv D :: F (opp d) c i k v t :: ctx) C a b) by (apply RC_fill; exact Hs).
  pose proof (black_or_null_run Hc) as Bn. rewrite HC in Bn. cbn [negb] in Bn. rewrite (bind_run Bn), (bind_run (check_true s)).
  pose proof (RC_sib Hc) as Hd. rewrite (bind_run (rd_run (rd_focus Hd))). cbn [is_red ncol]. rewrite (bind_run (check_true s)).
  rewrite (bind_run (rd_run (rd_focus H))). cbn [npar RbHeap.cid fi rotate_same].
  pose proof (RC_up H) as H0. unfold fill in H0. cbn [fd fc fi fk fv fs] in H0.
  destruct (rotate_run H0) as (s1 & R1 & H1 & K1). rewrite (bind_run R1).
  assert (H2 : RC s1 (F d c i k v C :: F d Black si sk sv D :: ctx) t a b) by (apply RC_fill, RC_fill; exact H1).
  rewrite (bind_run (rd_run (rd_focus H2))). cbn [npar RbHeap.cid fi]. rewrite (bind_run (rd_run (rd_parent H2))). rewrite ncol_F.
  destruct (color_node c H1) as (s2 & R2 & H3 & K2). rewrite (bind_run R2).
  assert (H4 : RC s2 (F d c si sk sv D :: ctx) (node K V d c t i k v C) a b) by (apply RC_fill; exact H3).
  destruct (color_node Black H4) as (s3 & R3 & H5 & K3). rewrite (bind_run R3).
  pose proof (RC_sib H5) as H6. destruct (color_run Black H6) as (s4 & R4 & H7 & K4). exists s4. split; [exact R4|].
  split; [|eapply keeps_trans; [exact K1|eapply keeps_trans; [exact K2|eapply keeps_trans; [exact K3|exact K4]]]].
  apply RC_sib' in H7. apply RC_fill. exact H7.
Qed.

Definition rest (rec : nat -> M K V unit) (d : side) (p sibling : nat) : M K V unit :=
  bind (rd K V sibling) (fun sn =>
  bind (black_or_null K V (nchild K V d sn)) (fun cb => bind (black_or_null K V (nchild K V (opp d) sn)) (fun db =>
  bind (check (is_black K V sn)) (fun _ => bind (rd K V p) (fun n => bind (rd K V (npar K V n)) (fun pn =>
  if cb && db then
    if is_red K V pn then bind (wr K V sibling (w_col K V Red)) (fun _ => wr K V (npar K V n) (w_col K V Black))
    else bind (wr K V sibling (w_col K V Red)) (fun _ => rec (npar K V n))
  else
    bind (if negb cb then
            bind (rotate_opposite K V sibling (DSide d)) (fun _ => bind (wr K V (nchild K V d sn) (w_col K V Black)) (fun _ => bind (wr K V sibling (w_col K V Red)) (fun _ =>
            bind (get_sibling K V p) (fun sb => bind (rd K V sb) (fun sn => ret K V (sb, (nchild K V d sn, nchild K V (opp d) sn)))))))
          else ret K V (sibling, (nchild K V d sn, nchild K V (opp d) sn)))
      (fun tr => let '(sibling, (close, distant)) := tr in case5 d p sibling close distant))))))).

Lemma rest_run {rec s d c i k v x ctx tc l p tk tv r a b orec ctx2} :
  RC s (F d c i k v x :: ctx) (T tc l p tk tv r) a b -> rem_fix2 K V d c i k v x ctx orec = Some ctx2 ->
  (forall s1 ctx3, orec = Some ctx3 -> RC s1 ctx (node K V d Black (T tc l p tk tv r) i k v (paint K V Red x)) a b ->
     exists s2, rec i s1 = Some (tt, s2) /\ RC s2 ctx3 (node K V d Black (T tc l p tk tv r) i k v (paint K V Red x)) a b /\ keeps s1 s2) ->
  exists s', rest rec d p (pid x) s = Some (tt, s') /\ RC s' ctx2 (T tc l p tk tv r) a b /\ keeps s s'.
Proof.
  intros H Hf Hrec. set (t := T tc l p tk tv r) in *. unfold rem_fix2 in Hf. destruct x as [|[] xl si sk sv xr]; try discriminate. cbn [RbHeap.pid].
  rewrite (node_pick d) in H. set (C := pick d xl xr) in *. set (D := pick d xr xl) in *. pose proof (RC_sib H) as Hs.
  assert (Hc : RC s (F d Black si sk sv D :: F (opp d) c i k v t :: ctx) C a b) by (apply RC_fill; exact Hs).
  pose proof (RC_sib Hc) as Hd. unfold rest. rewrite (bind_run (rd_run (rd_node Hs))). rewrite !nchild_d, !nchild_o.
  rewrite (bind_run (black_or_null_run Hc)), (bind_run (black_or_null_run Hd)). unfold is_black, is_red at 1. rewrite ncol_F. cbn [negb]. rewrite (bind_run (check_true s)).
  rewrite (bind_run (rd_run (rd_focus H))). cbn [npar RbHeap.cid fi]. rewrite (bind_run (rd_run (rd_parent H))). unfold is_red at 1. rewrite ncol_F.
  destruct (negb (tred K V C) && negb (tred K V D)) eqn:Eb.
  - destruct (color_node Red Hs) as (s1 & R1 & H1 & K1). apply RC_sib' in H1. unfold C, D in H1; rewrite <- (node_pick d) in H1. destruct c.
    + injection Hf as <-. rewrite (bind_run R1). destruct (color_parent Black H1) as (s2 & R2 & H2 & K2). exists s2. split; [exact R2|]. split; [exact H2|eapply keeps_trans; eassumption].
    + destruct orec as [ctx3|]; [|discriminate]. injection Hf as <-. rewrite (bind_run R1). apply RC_up in H1. destruct (Hrec s1 ctx3 eq_refl H1) as (s2 & R2 & H2 & K2).
      exists s2. split; [exact R2|]. split; [apply RC_fill; exact H2|eapply keeps_trans; eassumption].
  - rewrite negb_involutive. destruct (tred K V C) eqn:EC.
    + (* case 4 *)
      destruct C as [|[] l1 ci ck cv r1] eqn:HC0; try discriminate. destruct (tred K V (pick d l1 r1)) eqn:Et; [discriminate|]. injection Hf as <-.
      cbn [rotate_opposite RbHeap.pid].
      assert (Hs' : RC s (F (opp d) c i k v t :: ctx) (node K V (opp d) Black D si sk sv (node K V (opp d) Red (pick d r1 l1) ci ck cv (pick d l1 r1))) a b).
      { rewrite !node_opp. rewrite <- (node_pick d Red). exact Hs. }
      destruct (rotate_run Hs') as (s1 & R1 & H1 & K1). rewrite !node_opp in H1.
      destruct (color_node Black H1) as (s2 & R2 & H2 & K2).
      assert (H2' : RC s2 (F (opp d) Black ci ck cv (pick d l1 r1) :: F (opp d) c i k v t :: ctx) (node K V d Black (pick d r1 l1) si sk sv D) a b).
      { apply RC_fill. unfold fill. cbn [fd fc fi fk fv fs]. rewrite node_opp. exact H2. }
      destruct (color_node Red H2') as (s3 & R3 & H3 & K3).
      apply RC_up in H3. unfold fill in H3. cbn [fd fc fi fk fv fs] in H3. rewrite node_opp in H3. pose proof (RC_sib' H3) as H4.
      assert (Hsb : get_sibling K V p s3 = Some (ci, s3)) by (pose proof (sibling_run H4 (pid_nz H4)) as X; rewrite pid_node in X; exact X).
      assert (W : bind (rotate K V (opp d) si) (fun _ => bind (wr K V ci (w_col K V Black)) (fun _ => bind (wr K V si (w_col K V Red)) (fun _ =>
            bind (get_sibling K V p) (fun sb => bind (rd K V sb) (fun sn => ret K V (sb, (nchild K V d sn, nchild K V (opp d) sn))))))) s = Some ((ci, (pid (pick d l1 r1), si)), s3)).
      { rewrite (bind_run R1), (bind_run R2), (bind_run R3), (bind_run Hsb). rewrite (bind_run (rd_run (rd_node H3))). rewrite nchild_d, nchild_o, pid_node. reflexivity. }
      rewrite (bind_run W).
      assert (H5 : exists dl dr, node K V d Red (pick d r1 l1) si sk sv D = T Red dl si sk sv dr) by (destruct d; eexists _, _; reflexivity).
      destruct H5 as (dl & dr & Ed). rewrite Ed in H4. destruct (case5_run H4 Et) as (s4 & R4 & H5 & K4). exists s4. split; [exact R4|].
      split; [|eapply keeps_trans; [exact K1|eapply keeps_trans; [exact K2|eapply keeps_trans; [exact K3|exact K4]]]].
      replace (node K V d Black (pick d r1 l1) si sk sv D) with (T Black dl si sk sv dr); [exact H5|]. destruct d; cbn in Ed |- *; injection Ed as <- <-; reflexivity.
    + rewrite (bind_run (eq_refl : ret K V (si, (pid C, pid D)) s = Some ((si, (pid C, pid D)), s))).
      assert (ED : tred K V D = true) by (destruct (tred K V D); [reflexivity|discriminate]). destruct D as [|[] dl di dkk dvv dr]; try discriminate.
      destruct (case5_run H EC) as (s1 & R1 & H1 & K1). exists s1. split; [exact R1|]. split; [|exact K1].
      assert (ctx2 = F d Black i k v C :: F d c si sk sv (T Black dl di dkk dvv dr) :: ctx) as ->; [|exact H1].
      destruct C as [|[] ? ? ? ? ?]; cbn in EC; try discriminate; injection Hf as <-; reflexivity.
Qed.

Lemma mar_run : forall fuel ctx ctx2 s l i k v r a b, length ctx < fuel -> RC s ctx (T Black l i k v r) a b -> rem_fix K V ctx = Some ctx2 ->
  exists s', maintain_after_remove K V fuel i s = Some (tt, s') /\ RC s' ctx2 (T Black l i k v r) a b /\ keeps s s'.
Proof.
  induction fuel as [|f IH]; intros ctx ctx2 s l i k v r a b Hf H Hx; [lia|]. cbn [maintain_after_remove].
  pose proof (pid_nz H) as Hz. pose proof (is_root_run H Hz) as Ir. cbn [RbHeap.pid] in Ir. rewrite (bind_run Ir).
  destruct ctx as [|[d c pi pk pv x] ctx']; [cbn in Hx; injection Hx as <-; exists s; split; [reflexivity|split; [exact H|apply keeps_refl]]|].
  rewrite (bind_run (rd_run (rd_focus H))). cbn [rem_fix] in Hx.
  assert (Hxn : x <> E) by (intros ->; discriminate).
  pose proof (RC_nz (RC_sib H) Hxn) as Xz.
  pose proof (has_sibling_run H Hz) as Hs. apply Nat.eqb_neq in Xz. unfold null in Hs. rewrite Xz in Hs. cbn [RbHeap.pid] in Hs. rewrite (bind_run Hs). cbn [negb].
  unfold is_black at 1, is_red at 1. cbn [ncol negb andb]. rewrite (bind_run (check_true s)).
  pose proof (direction_run H Hz) as Dr. cbn [RbHeap.pid cdir] in Dr. rewrite (bind_run Dr). cbn [cdir].
  pose proof (sibling_run H Hz) as Sb. cbn [RbHeap.pid] in Sb. rewrite (bind_run Sb). cbn [npar RbHeap.cid fi].
  destruct x as [|xc xl si sk sv xr]; [contradiction|]. cbn [RbHeap.pid]. pose proof (rd_focus (RC_sib H)) as Rs. rewrite (bind_run (rd_run Rs)).
  destruct xc.
  - (* red sibling *)
    destruct c; [discriminate|]. destruct xl as [|[] ll li lk lv lr]; try discriminate. destruct xr as [|[] rl ri rk rv rr]; try discriminate.
    cbn [is_red ncol]. 
    set (xl := T Black ll li lk lv lr) in *. set (xr := T Black rl ri rk rv rr) in *. set (t := T Black l i k v r) in *.
    assert (Hl : RC s (F L Red si sk sv xr :: F (opp d) Black pi pk pv t :: ctx') xl a b) by (apply RC_fill; exact (RC_sib H)).
    assert (Hr : RC s (F R Red si sk sv xl :: F (opp d) Black pi pk pv t :: ctx') xr a b) by (apply RC_fill; exact (RC_sib H)).
    pose proof (RC_up H) as H0. unfold fill in H0. cbn [fd fc fi fk fv fs] in H0. rewrite (node_pick d Red) in H0.
    destruct (rotate_run H0) as (s1 & R1 & H1 & K1). destruct (color_node Black H1) as (s2 & R2 & H2 & K2).
    assert (H2' : RC s2 (F d Black si sk sv (pick d xr xl) :: ctx') (node K V d Black t pi pk pv (pick d xl xr)) a b) by (apply RC_fill; exact H2).
    destruct (color_node Red H2') as (s3 & R3 & H3 & K3).
    assert (H4 : RC s3 (F d Red pi pk pv (pick d xl xr) :: F d Black si sk sv (pick d xr xl) :: ctx') t a b) by (apply RC_fill; exact H3).
    assert (W : (bind (rd K V pi) (fun pn => bind (check (is_black K V pn)) (fun _ =>
            bind (check (negb (null (nleft K V (mkN K V Red pi (pid xl) (pid xr) sk sv))))) (fun _ => bind (rd K V (nleft K V (mkN K V Red pi (pid xl) (pid xr) sk sv))) (fun ln => bind (check (is_black K V ln)) (fun _ =>
            bind (check (negb (null (nright K V (mkN K V Red pi (pid xl) (pid xr) sk sv))))) (fun _ => bind (rd K V (nright K V (mkN K V Red pi (pid xl) (pid xr) sk sv))) (fun rn => bind (check (is_black K V rn)) (fun _ =>
            bind (rotate_same K V pi (DSide d)) (fun _ => bind (wr K V si (w_col K V Black)) (fun _ => bind (wr K V pi (w_col K V Red)) (fun _ => get_sibling K V i))))))))))))
            s = Some (pid (pick d xl xr), s3)).
    { rewrite (bind_run (rd_run (rd_parent H))). unfold is_black at 1, is_red at 1. rewrite ncol_F. cbn [negb]. rewrite (bind_run (check_true s)). cbn [nleft nright RbHeap.pid].
      pose proof (RC_nz Hl ltac:(discriminate)) as N1. pose proof (RC_nz Hr ltac:(discriminate)) as N2. unfold xl, xr in N1, N2 |- *. cbn [RbHeap.pid] in N1, N2 |- *.
      apply Nat.eqb_neq in N1, N2. unfold null. rewrite N1, N2. cbn [negb].
      rewrite (bind_run (check_true s)), (bind_run (rd_run (rd_focus Hl))). cbn [is_black is_red ncol negb]. unfold is_black at 1, is_red at 1. cbn [ncol negb]. rewrite (bind_run (check_true s)).
      rewrite (bind_run (check_true s)), (bind_run (rd_run (rd_focus Hr))). try unfold is_black, is_red. cbn [ncol negb]. rewrite (bind_run (check_true s)).
      cbn [rotate_same]. rewrite (bind_run R1), (bind_run R2), (bind_run R3). exact (sibling_run H4 Hz). }
    rewrite (bind_run W). 
    destruct (rest_run (rec := maintain_after_remove K V f) H4 Hx) as (s4 & R4 & H5 & K4); [discriminate|].
    exists s4. split; [exact R4|]. split; [exact H5|]. eapply keeps_trans; [exact K1|eapply keeps_trans; [exact K2|eapply keeps_trans; [exact K3|exact K4]]].
  - cbn [is_red ncol]. rewrite (bind_run (eq_refl : ret K V si s = Some (si, s))).
    destruct (rest_run (rec := maintain_after_remove K V f) H Hx) as (s1 & R1 & H1 & K1).
    + intros s1 ctx3 E1 H1.
      assert (W : exists tl tr, node K V d Black (T Black l i k v r) pi pk pv (paint K V Red (T Black xl si sk sv xr)) = T Black tl pi pk pv tr) by (destruct d; eexists _, _; reflexivity).
      destruct W as (tl & tr & Et). rewrite Et in H1 |- *. apply (IH ctx' ctx3); [cbn in Hf; lia|exact H1|exact E1].
    + exists s1. split; [exact R1|]. split; [exact H1|exact K1].
Qed.
End H.
