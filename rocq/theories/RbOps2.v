(** Removal on the heap. *)
From Verif Require Import Prelude RbModel RbSpec RbTree RbHeap RbHeap2 RbHeap3 RbHeap4 RbHeap5 RbHeap6 RbOps.

Section H.
Variables (K V : Type) (dk : K) (dv : V).
Notation tree := (tree K V).
Notation frame := (frame K V).
Notation st := (RbModel.st K V).
Notation RC := (RC K V dk dv).
Notation pid := (pid K V).
Notation cid := (cid K V).
Notation ids := (ids K V).
Notation cids := (cids K V).
Notation plug := (plug K V).
Notation keeps := (keeps K V).
Notation bind := (bind K V).
Notation heap := (heap K V).
Notation elems := (elems K V).
Notation bef := (bef K V).
Notation aft := (aft K V).
Notation fid := (fid K V).
Notation lid := (lid K V).
Notation rb := (rb K V).
Implicit Types (t l r : tree) (ctx : list frame) (s : st).


(** contexts that differ in labels only *)
Lemma cok_relabel rctx : forall d c i k v i' k' v' x ctx n, cok K V (rctx ++ F d c i k v x :: ctx) n -> cok K V (rctx ++ F d c i' k' v' x :: ctx) n.
Proof.
  induction rctx as [|[d0 [] i0 k0 v0 x0] rctx IH]; intros d c i k v i' k' v' x ctx n; cbn [app cok].
  - destruct c; auto.
  - intros (A & B & C). split; [exact A|]. split; [destruct rctx; exact B|eapply IH; exact C].
  - intros (A & C). split; [exact A|eapply IH; exact C].
Qed.
Lemma hc_relabel rctx d c i k v i' k' v' x ctx : hc K V (rctx ++ F d c i k v x :: ctx) = hc K V (rctx ++ F d c i' k' v' x :: ctx).
Proof. destruct rctx; reflexivity. Qed.
Lemma bef_lefts rctx : lefts K V rctx -> bef rctx = [].
Proof. induction 1 as [|[d c i k v x] rctx Hd _ IH]; [reflexivity|]. cbn in Hd. subst d. exact IH. Qed.

(** the node that is finally unlinked has at most one child *)
Lemma normalize_run {s ctx c l p k v r a b m} : RC s ctx (T c l p k v r) a b -> rb (plug ctx (T c l p k v r)) Black m ->
  exists s' ctx' c' l' r' n, (bind (rd K V p) (fun n0 => if negb (null (nleft K V n0)) && negb (null (nright K V n0)) then
       bind (get_fuel K V) (fun f => bind (successor_of K V f p (nright K V n0)) (fun w => swap_nodes K V p (snd w) (fst w))) else ret K V tt)) s = Some (tt, s') /\
    RC s' ctx' (T c' l' p k v r') a b /\ (l' = E \/ r' = E) /\ rb (T c' l' p k v r') c' n /\ cok K V ctx' n /\ (c' = Black \/ hc K V ctx' = Black) /\
    bef ctx' ++ (elems l' ++ elems r') ++ aft ctx' = bef ctx ++ (elems l ++ elems r) ++ aft ctx /\ keeps s s'.
Proof.
  intros H Hb. rewrite (bind_run (rd_run (rd_focus H))). cbn [nleft nright].
  rewrite (null_pid K V dk dv (child_L K V dk dv H)), (null_pid K V dk dv (child_R K V dk dv H)).
  assert (Same : l = E \/ r = E -> exists s' ctx' c' l' r' n, Some (tt, s) = Some (tt, s') /\ RC s' ctx' (T c' l' p k v r') a b /\ (l' = E \/ r' = E) /\ rb (T c' l' p k v r') c' n /\
     cok K V ctx' n /\ (c' = Black \/ hc K V ctx' = Black) /\ bef ctx' ++ (elems l' ++ elems r') ++ aft ctx' = bef ctx ++ (elems l ++ elems r) ++ aft ctx /\ keeps s s').
  { intro Hlr. destruct (rb_plug_inv K V _ _ _ Hb) as (c1 & n & B1 & C1 & D1). assert (c1 = c) by (inversion B1; reflexivity). subst c1.
    exists s, ctx, c, l, r, n. repeat (split; [first [assumption|reflexivity]|]). apply keeps_refl. }
  destruct l as [|lc ll li lk lv lr]; [exact (Same (or_introl eq_refl))|].
  destruct r as [|rc rl ri rk rv rr]; [exact (Same (or_intror eq_refl))|]. clear Same. cbn [negb andb].
  set (l := T lc ll li lk lv lr) in *. set (r := T rc rl ri rk rv rr) in *.
  rewrite (bind_run (eq_refl : get_fuel K V s = Some (next K V s, s))).
  pose proof (child_R K V dk dv H) as Hr. pose proof (RC_size Hr) as Sz.
  destruct (successor_run K V dk dv r s _ _ _ p (next K V s) ltac:(discriminate) Hr ltac:(lia)) as (rctx & c2 & m2 & mk & mv & mr & Er & Hl & Rs).
  rewrite (bind_run Rs). cbn [fst snd]. clearbody r. subst r.
  destruct (swap_run H Hl) as (s' & R' & H' & K'). exists s', (rctx ++ F R c m2 mk mv l :: ctx), c2, E, mr.
  assert (Hb' : rb (plug (rctx ++ F R c p k v l :: ctx) (T c2 E m2 mk mv mr)) Black m) by (rewrite plug_app; exact Hb).
  destruct (rb_plug_inv K V _ _ _ Hb') as (c1 & n & B1 & C1 & D1). assert (c1 = c2) by (inversion B1; reflexivity). subst c1. exists n.
  split; [exact R'|]. split; [apply RC_down; exact H'|]. split; [left; reflexivity|]. split; [inversion B1; subst; econstructor; eassumption|].
  split; [eapply cok_relabel; exact C1|]. split; [rewrite (hc_relabel rctx R c m2 mk mv p k v); exact D1|]. split; [|exact K'].
  rewrite bef_app, aft_app. cbn [RbTree.bef RbTree.aft RbTree.elems]. rewrite elems_plug. cbn [RbTree.elems]. rewrite (bef_lefts _ Hl). cbn [app]. rewrite app_nil_r, <- !app_assoc. cbn [app]. rewrite <- app_assoc. reflexivity.
Qed.
Lemma remove_node_run {s ctx c l p k v r m} : let t := T c l p k v r in
  RC s ctx t (fid (bef ctx ++ elems t ++ aft ctx)) (lid (bef ctx ++ elems t ++ aft ctx)) -> rb (plug ctx t) Black m -> cnt K V s = length (bef ctx ++ elems t ++ aft ctx) ->
  exists s' t', remove_node K V p s = Some (tt, s') /\ elems t' = bef ctx ++ (elems l ++ elems r) ++ aft ctx /\ RC s' [] t' (fid (elems t')) (lid (elems t')) /\
    (exists n, rb t' Black n) /\ cnt K V s' = length (elems t').
Proof.
  intros t H Hb Hc. destruct (update_end_L K V dk dv H eq_refl) as (s1 & R1 & H1 & K1). destruct (update_end_R K V dk dv H1 eq_refl) as (s2 & R2 & H2 & K2).
  assert (Kc : cnt K V s2 = length (bef ctx ++ elems t ++ aft ctx)) by (destruct K1 as [K1 _], K2 as [K2 _]; congruence).
  set (es := bef ctx ++ (elems l ++ elems r) ++ aft ctx) in *.
  assert (Le : length (bef ctx ++ elems t ++ aft ctx) = S (length es)) by (unfold es, t; cbn [RbTree.elems]; rewrite !app_length; cbn [length]; lia).
  unfold remove_node. rewrite (bind_run R1), (bind_run R2). rewrite (bind_run (eq_refl : get_cnt K V s2 = Some (cnt K V s2, s2))). rewrite Kc, Le.
  destruct (Nat.eqb_spec (S (length es)) 1) as [E1|N1].
  - destruct es as [|e es'] eqn:Ees; [|cbn in E1; lia]. destruct (clear_run K V dk dv (RC_all H2)) as (s3 & R3 & H3 & C3 & _).
    exists s3, E. split; [exact R3|]. split; [reflexivity|]. split; [exact H3|]. split; [exists 0; constructor|exact C3].
  - destruct (normalize_run H2 Hb) as (s3 & ctx' & c' & l' & r' & n & R3 & H3 & Hlr & B3 & C3 & D3 & E3 & K3). fold es in E3.
    assert (R3' : forall (kk : unit -> M K V unit), bind (rd K V p) (fun n0 => bind (if negb (null (nleft K V n0)) && negb (null (nright K V n0)) then
       bind (get_fuel K V) (fun f => bind (successor_of K V f p (nright K V n0)) (fun w => swap_nodes K V p (snd w) (fst w))) else ret K V tt) kk) s2 = kk tt s3).
    { intro kk. rewrite <- (bind_run R3). unfold RbModel.bind at 1 2 5. unfold RbModel.bind at 3. destruct (rd K V p s2) as [[n0 s0]|]; reflexivity. }
    rewrite R3'. rewrite (bind_run (rd_run (rd_focus H3))). cbn [nleft nright].
    rewrite (null_pid K V dk dv (child_L K V dk dv H3)), (null_pid K V dk dv (child_R K V dk dv H3)).
    assert (W : exists s4 t4, (if match l' with E => true | _ => false end && match r' with E => true | _ => false end then unlink_leaf K V p else unlink_single K V p) s3 = Some (tt, s4) /\
       elems t4 = es /\ RC s4 [] t4 (fid es) (lid es) /\ (exists n, rb t4 Black n) /\ keeps s3 s4).
    { assert (Single : forall d x q qk qv y, node K V d c' E p k v (T x y q qk qv r) = T c' l' p k v r' -> True) by auto. clear Single.
      destruct l' as [|lc ll li lk lv lr]; [destruct r' as [|rc rl ri rk rv rr]|destruct Hlr as [|Hlr]; [discriminate|subst r']]; cbn [andb].
      - destruct ctx' as [|f ctx']; [exfalso; cbn in E3; rewrite <- E3 in N1; cbn in N1; lia|].
        assert (X : exists ctx2, match c' with Red => ctx2 = f :: ctx' | Black => rem_fix K V (f :: ctx') = Some ctx2 end /\ bef ctx2 = bef (f :: ctx') /\ aft ctx2 = aft (f :: ctx') /\ cok K V ctx2 0).
        { destruct c'.
          - exists (f :: ctx'). inversion B3 as [|? ? ? ? ? ? Hl _|]; subst. inversion Hl; subst. auto.
          - inversion B3 as [| |? ? ? ? ? ? ? n0 Hl _]; subst. inversion Hl; subst. destruct (rem_fix_ok K V _ _ C3) as (ctx2 & F2 & C2). exists ctx2. split; [exact F2|].
            destruct (rem_fix_elems K V _ _ F2) as [X Y]. auto. }
        destruct X as (ctx2 & F2 & Bf & Af & C2). destruct (unlink_leaf_run K V dk dv H3 F2) as (s4 & R4 & H4 & K4). exists s4, (plug ctx2 E). split; [exact R4|].
        assert (Ee : elems (plug ctx2 E) = es) by (rewrite elems_plug, Bf, Af, <- E3; reflexivity).
        split; [exact Ee|]. split; [exact (RC_all H4)|]. split; [|exact K4]. apply (plug_rb K V ctx2 E Black 0); [exact C2|constructor|auto].
      - assert (X : c' = Black /\ rc = Red /\ n = 1 /\ rb (T Black rl ri rk rv rr) Black 1).
        { inversion B3 as [|? ? ? ? ? ? Hl Hr|? ? ? ? ? ? ? n0 Hl Hr]; subst; inversion Hl; subst; inversion Hr; subst. split; [reflexivity|]. split; [reflexivity|]. split; [reflexivity|]. econstructor; eassumption. }
        destruct X as (-> & -> & -> & B4). change (T Black E p k v (T Red rl ri rk rv rr)) with (node K V L Black E p k v (T Red rl ri rk rv rr)) in H3.
        destruct (unlink_single_run K V dk dv H3) as (s4 & R4 & H4 & K4). exists s4, (plug ctx' (T Black rl ri rk rv rr)). split; [exact R4|].
        split; [rewrite elems_plug, <- E3; reflexivity|]. split; [exact (RC_all H4)|]. split; [|exact K4]. apply (plug_rb K V ctx' _ Black 1); [exact C3|exact B4|auto].
      - assert (X : c' = Black /\ lc = Red /\ n = 1 /\ rb (T Black ll li lk lv lr) Black 1).
        { inversion B3 as [|? ? ? ? ? ? Hl Hr|? ? ? ? ? ? ? n0 Hl Hr]; subst; inversion Hr; subst; inversion Hl; subst. split; [reflexivity|]. split; [reflexivity|]. split; [reflexivity|]. econstructor; eassumption. }
        destruct X as (-> & -> & -> & B4). change (T Black (T Red ll li lk lv lr) p k v E) with (node K V R Black E p k v (T Red ll li lk lv lr)) in H3.
        destruct (unlink_single_run K V dk dv H3) as (s4 & R4 & H4 & K4). exists s4, (plug ctx' (T Black ll li lk lv lr)). split; [exact R4|].
        split; [rewrite elems_plug, <- E3; cbn [RbTree.elems]; rewrite app_nil_r; reflexivity|]. split; [exact (RC_all H4)|]. split; [|exact K4]. apply (plug_rb K V ctx' _ Black 1); [exact C3|exact B4|auto]. }
    destruct W as (s4 & t4 & R4 & E4 & H4 & B4 & K4). rewrite (bind_run R4). unfold RbModel.bind, get_cnt, set_cnt. eexists. exists t4. split; [reflexivity|].
    split; [exact E4|]. rewrite E4. split; [apply RC_cnt; exact H4|]. split; [exact B4|]. cbn [cnt]. destruct K3 as [K3 _], K4 as [K4 _]. lia.
Qed.
End H.
