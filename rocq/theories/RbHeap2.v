(** maintainAfterInsert on the heap. *)
From Verif Require Import Prelude RbModel RbTree RbHeap.

Lemma node_opp {K V} d c (x : tree K V) i k v y : node K V (opp d) c x i k v y = node K V d c y i k v x.
Proof. destruct d; reflexivity. Qed.
Lemma node_pick {K V} d c (l : tree K V) i k v r : T c l i k v r = node K V d c (pick d l r) i k v (pick d r l).
Proof. destruct d; reflexivity. Qed.
Lemma opp_opp d : opp (opp d) = d.
Proof. destruct d; reflexivity. Qed.

Section H.
Variables (K V : Type) (dk : K) (dv : V).
Notation tree := (tree K V).
Notation frame := (frame K V).
Notation st := (RbModel.st K V).
Notation RC := (RC K V dk dv).
Notation pid := (pid K V).
Notation cid := (cid K V).
Notation keeps := (keeps K V).
Notation bind := (bind K V).
Implicit Types (t l r y z u : tree) (ctx : list frame) (s : st).

Lemma pid_nz {s ctx c l i k v r a b} : RC s ctx (T c l i k v r) a b -> i <> 0.
Proof.
  intro H. apply (ids_pos H). apply in_or_app. left. rewrite ids_T. apply in_or_app. right. left. reflexivity.
Qed.
Lemma red_run {s p n} : heap _ _ s p = Some n -> bind (rd K V p) (fun x => ret K V (is_red K V x)) s = Some (is_red K V n, s).
Proof. intro H. rewrite (bind_run (rd_run H)). reflexivity. Qed.

(** case 6 *)
Definition case6 (w : nat) : M K V unit :=
  bind (rd K V w) (fun xn => bind (rd K V (npar K V xn)) (fun pn => bind (get_direction K V (npar K V xn)) (fun d3 =>
  bind (match d3 with DSide L => rotate K V R (npar K V pn) | _ => rotate K V L (npar K V pn) end) (fun _ =>
  bind (rd K V w) (fun xn => bind (wr K V (npar K V xn) (w_col K V Black)) (fun _ => bind (get_sibling K V w) (fun sb => wr K V sb (w_col K V Red)))))))).
Lemma case6_run {s d pi pk pv q0 c2 i2 k2 v2 u ctx tc l i k v r a b} :
  RC s (F d Red pi pk pv q0 :: F d c2 i2 k2 v2 u :: ctx) (T tc l i k v r) a b ->
  exists s', case6 i s = Some (tt, s') /\ RC s' ctx (node K V d Black (T tc l i k v r) pi pk pv (node K V d Red q0 i2 k2 v2 u)) a b /\ keeps s s'.
Proof.
  intro H. unfold case6.
  rewrite (bind_run (rd_run (rd_focus H))). cbn [npar RbHeap.cid fi].
  pose proof H as H0. apply RC_up in H0.
  rewrite (bind_run (rd_run (rd_parent H))). rewrite npar_F. cbn [RbHeap.cid fi].
  assert (Pz : pi <> 0) by (unfold fill in H0; cbn [fd fc fi fk fv fs] in H0; destruct d; exact (pid_nz H0)).
  pose proof (direction_run H0) as Dr. unfold fill in Dr at 1 2. cbn [fd fc fi fk fv fs] in Dr. rewrite pid_node in Dr. rewrite (bind_run (Dr Pz)). cbn [cdir].
  apply RC_up in H0. unfold fill in H0. cbn [fd fc fi fk fv fs] in H0. rewrite <- (node_opp d c2) in H0. rewrite <- (node_opp d Red) in H0.
  destruct (rotate_run H0) as (s1 & R1 & H1 & K1).
  assert (Rr : (match d with L => rotate K V R i2 | R => rotate K V L i2 end) s = Some (tt, s1)) by (destruct d; exact R1).
  rewrite (bind_run (Rr : (match DSide d with DSide L => rotate K V R i2 | _ => rotate K V L i2 end) s = Some (tt, s1))).
  rewrite !node_opp in H1.
  assert (H2 : RC s1 (F d Red pi pk pv (node K V d c2 q0 i2 k2 v2 u) :: ctx) (T tc l i k v r) a b) by (apply RC_fill; exact H1).
  rewrite (bind_run (rd_run (rd_focus H2))). cbn [npar RbHeap.cid fi].
  assert (W : exists s2, wr K V pi (w_col K V Black) s1 = Some (tt, s2) /\ RC s2 ctx (node K V d Black (T tc l i k v r) pi pk pv (node K V d c2 q0 i2 k2 v2 u)) a b /\ keeps s1 s2).
  { destruct d; exact (color_run Black H1). }
  destruct W as (s2 & R2 & H3 & K2). rewrite (bind_run R2).
  assert (H4 : RC s2 (F d Black pi pk pv (node K V d c2 q0 i2 k2 v2 u) :: ctx) (T tc l i k v r) a b) by (apply RC_fill; exact H3).
  rewrite (bind_run (sibling_run H4 (pid_nz H4))). rewrite pid_node.
  assert (H5 : RC s2 (F (opp d) Black pi pk pv (T tc l i k v r) :: ctx) (node K V d c2 q0 i2 k2 v2 u) a b).
  { apply RC_fill. unfold fill. cbn [fd fc fi fk fv fs]. rewrite node_opp. exact H3. }
  assert (W : exists s3, wr K V i2 (w_col K V Red) s2 = Some (tt, s3) /\ RC s3 (F (opp d) Black pi pk pv (T tc l i k v r) :: ctx) (node K V d Red q0 i2 k2 v2 u) a b /\ keeps s2 s3).
  { destruct d; exact (color_run Red H5). }
  destruct W as (s3 & R3 & H6 & K3). exists s3. split; [exact R3|]. split; [|eapply keeps_trans; [exact K1|eapply keeps_trans; [exact K2|exact K3]]].
  apply RC_up in H6. unfold fill in H6. cbn [fd fc fi fk fv fs] in H6. rewrite node_opp in H6. exact H6.
Qed.

Lemma mai_run : forall fuel ctx s l i k v r a b, length ctx < fuel -> RC s ctx (T Red l i k v r) a b ->
  exists s', maintain_after_insert K V fuel i s = Some (tt, s') /\ RC s' [] (ins_fix K V ctx (T Red l i k v r)) a b /\ keeps s s'.
Proof.
  induction fuel as [|f IH]; intros ctx s l i k v r a b Hf H; [lia|]. cbn [maintain_after_insert].
  pose proof (pid_nz H) as Hz. pose proof (is_root_run H Hz) as Ir. cbn [RbHeap.pid] in Ir. rewrite (bind_run Ir).
  pose proof (rd_focus H) as Rd.
  destruct ctx as [|[d c pi pk pv q0] ctx'].
  - rewrite (bind_run (rd_run Rd)). cbn [is_red ncol check]. rewrite (bind_run (eq_refl : ret K V tt s = Some (tt, s))).
    exact (color_run Black H).
  - rewrite (bind_run (rd_run Rd)). cbn [npar RbHeap.cid fi].
    rewrite (bind_run (rd_run (rd_parent H))).
    assert (Cp : ncol K V (mkF K V d c (cid ctx') (pid (T Red l i k v r)) (pid q0) pk pv) = c) by (destruct d; reflexivity).
    unfold is_black, is_red at 1. rewrite Cp. rewrite npar_F. pose proof H as H0. apply RC_up in H0.
    assert (Pz : pi <> 0) by (unfold fill in H0; cbn [fd fc fi fk fv fs] in H0; destruct d; exact (pid_nz H0)).
    assert (Pp : pid (fill K V (F d c pi pk pv q0) (T Red l i k v r)) = pi) by apply pid_node.
    destruct c; cbn [negb].
    2: { exists s. split; [reflexivity|]. split; [|apply keeps_refl]. cbn [ins_fix]. apply RC_all. exact H. }
    pose proof (is_root_run H0) as Ip. rewrite Pp in Ip. specialize (Ip Pz). rewrite (bind_run Ip).
    destruct ctx' as [|[d2 c2 i2 k2 v2 u] ctx''].
    + cbn [ins_fix plug]. unfold fill in H0 |- *. cbn [fd fc fi fk fv fs] in H0 |- *.
      destruct d; exact (color_run Black H0).
    + (* uncle *)
      pose proof (has_sibling_run H0) as Hs. rewrite Pp in Hs. specialize (Hs Pz).
      pose proof (sibling_run H0) as Sb. rewrite Pp in Sb. specialize (Sb Pz).
      assert (Hu : has_uncle K V i s = Some (negb (null (pid u)), s)).
      { unfold has_uncle. rewrite (bind_run Ir). rewrite (bind_run (rd_run Rd)). cbn [npar RbHeap.cid fi]. exact Hs. }
      assert (Gu : get_uncle K V i s = Some (pid u, s)).
      { unfold get_uncle. rewrite (bind_run (rd_run Rd)). cbn [npar RbHeap.cid fi]. exact Sb. }
      rewrite (bind_run Hu). cbn [RbHeap.cid fi ins_fix].
      assert (U : (if negb (null (pid u)) then get_uncle K V i else ret K V 0) s = Some (pid u, s)).
      { destruct (null (pid u)) eqn:E; cbn [negb]; [|exact Gu]. apply Nat.eqb_eq in E. rewrite E. reflexivity. }
      rewrite (bind_run U).
      assert (Uu : (if negb (null (pid u)) then bind (rd K V (pid u)) (fun x => ret K V (is_red K V x)) else ret K V false) s = Some (tred K V u, s)).
      { destruct u as [|uc ul ui uk uv ur]; [reflexivity|].
        assert (Hu0 : RC s (F (opp d2) c2 i2 k2 v2 (fill K V (F d Red pi pk pv q0) (T Red l i k v r)) :: ctx'') (T uc ul ui uk uv ur) a b).
        { apply RC_up in H0. apply RC_fill. unfold fill at 1. cbn [fd fc fi fk fv fs]. rewrite node_opp. exact H0. }
        pose proof (pid_nz Hu0) as Uz. cbn [RbHeap.pid]. apply Nat.eqb_neq in Uz. unfold null. rewrite Uz. cbn [negb].
        rewrite (red_run (rd_focus Hu0)). destruct uc; reflexivity. }
      rewrite (bind_run Uu).
      destruct (tred K V u) eqn:Eu.
      * (* case 4 *)
        destruct u as [|[] ul ui uk uv ur]; try discriminate. cbn [RbHeap.pid paint].
        set (t := T Red l i k v r) in *.
        assert (W : exists s1, wr K V pi (w_col K V Black) s = Some (tt, s1) /\ RC s1 (F d2 c2 i2 k2 v2 (T Red ul ui uk uv ur) :: ctx'') (node K V d Black t pi pk pv q0) a b /\ keeps s s1).
        { unfold fill in H0. cbn [fd fc fi fk fv fs] in H0. destruct d; exact (color_run Black H0). }
        destruct W as (s1 & R1 & H1 & K1). rewrite (bind_run R1).
        assert (H2 : RC s1 (F (opp d2) c2 i2 k2 v2 (node K V d Black t pi pk pv q0) :: ctx'') (T Red ul ui uk uv ur) a b).
        { apply RC_up in H1. apply RC_fill. unfold fill in *. cbn [fd fc fi fk fv fs] in *. rewrite node_opp. exact H1. }
        destruct (color_run Black H2) as (s2 & R2 & H3 & K2). rewrite (bind_run R2).
        apply RC_up in H3. unfold fill in H3. cbn [fd fc fi fk fv fs] in H3. rewrite node_opp in H3.
        assert (W : exists s3, wr K V i2 (w_col K V Red) s2 = Some (tt, s3) /\ RC s3 ctx'' (node K V d2 Red (node K V d Black t pi pk pv q0) i2 k2 v2 (T Black ul ui uk uv ur)) a b /\ keeps s2 s3).
        { destruct d2; exact (color_run Red H3). }
        destruct W as (s3 & R3 & H4 & K3). rewrite (bind_run R3).
        assert (W : exists s4, maintain_after_insert K V f i2 s3 = Some (tt, s4) /\
          RC s4 [] (ins_fix K V ctx'' (node K V d2 Red (node K V d Black t pi pk pv q0) i2 k2 v2 (T Black ul ui uk uv ur))) a b /\ keeps s3 s4).
        { destruct d2; cbn [node] in H4 |- *; apply IH; try exact H4; cbn in Hf; lia. }
        destruct W as (s4 & R4 & H5 & K4). exists s4. split; [exact R4|]. split; [exact H5|].
        eapply keeps_trans; [exact K1|eapply keeps_trans; [exact K2|eapply keeps_trans; [exact K3|exact K4]]].
      * (* cases 5, 6 *)
        rewrite (bind_run (direction_run H Hz)). cbn [cdir].
        pose proof (direction_run H0) as Dr. rewrite Pp in Dr. rewrite (bind_run (Dr Pz)). cbn [cdir].
        destruct (side_eqb d d2) eqn:Ed.
        -- assert (d2 = d) as -> by (destruct d, d2; congruence || discriminate).
           assert (Q : (match d, d with L, R => bind (rotate K V R pi) (fun _ => ret K V pi) | R, L => bind (rotate K V L pi) (fun _ => ret K V pi) | _, _ => ret K V i end) s = Some (i, s)) by (destruct d; reflexivity).
           rewrite (bind_run (Q : (match DSide d, DSide d with DSide L, DSide R => bind (rotate K V R pi) (fun _ => ret K V pi) | DSide R, DSide L => bind (rotate K V L pi) (fun _ => ret K V pi) | DSide _, DSide _ => ret K V i | _, _ => fail K V end) s = Some (i, s))).
           destruct (case6_run H) as (s1 & R1 & H1 & K1).
           exists s1. split; [exact R1|]. split; [|exact K1]. apply RC_all. exact H1.
        -- assert (d = opp d2) as -> by (destruct d, d2; discriminate || reflexivity).
           unfold fill in H0. cbn [fd fc fi fk fv fs] in H0. rewrite node_opp in H0. rewrite (node_pick d2) in H0.
           destruct (rotate_run H0) as (s1 & R1 & H1 & K1).
           assert (Q : (match opp d2, d2 with L, R => bind (rotate K V R pi) (fun _ => ret K V pi) | R, L => bind (rotate K V L pi) (fun _ => ret K V pi) | _, _ => ret K V i end) s = Some (pi, s1)).
           { destruct d2; cbn [opp]; rewrite (bind_run R1); reflexivity. }
           rewrite (bind_run (Q : (match DSide (opp d2), DSide d2 with DSide L, DSide R => bind (rotate K V R pi) (fun _ => ret K V pi) | DSide R, DSide L => bind (rotate K V L pi) (fun _ => ret K V pi) | DSide _, DSide _ => ret K V i | _, _ => fail K V end) s = Some (pi, s1))).
           assert (H2 : RC s1 (F d2 Red i k v (pick d2 r l) :: F d2 c2 i2 k2 v2 u :: ctx'') (node K V d2 Red q0 pi pk pv (pick d2 l r)) a b) by (apply RC_fill; exact H1).
           assert (W : exists s2, case6 pi s1 = Some (tt, s2) /\ RC s2 ctx'' (node K V d2 Black (node K V d2 Red q0 pi pk pv (pick d2 l r)) i k v (node K V d2 Red (pick d2 r l) i2 k2 v2 u)) a b /\ keeps s1 s2).
           { destruct d2; exact (case6_run H2). }
           destruct W as (s2 & R2 & H3 & K2). exists s2. split; [exact R2|]. split; [apply RC_all; exact H3|eapply keeps_trans; eassumption].
Qed.
End H.
Arguments pid_nz {K V dk dv s ctx c l i k v r a b} _.
