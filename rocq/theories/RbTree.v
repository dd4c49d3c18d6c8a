(** Proof device for RBTreeMap: the same algorithms on trees and contexts (what is above a subtree), without a heap. *)
From Verif Require Import Prelude RbModel.

Ltac lsimp := cbn; repeat first [rewrite <- !app_assoc | progress cbn [app]].
Section Tr.
Variables (K V : Type).
Inductive tree := E | T (c : color) (l : tree) (i : nat) (k : K) (v : V) (r : tree).
Definition node (d : side) (c : color) (x : tree) (i : nat) (k : K) (v : V) (y : tree) : tree :=
  match d with L => T c x i k v y | R => T c y i k v x end.
Record frame := F { fd : side; fc : color; fi : nat; fk : K; fv : V; fs : tree }.
Definition fill (f : frame) (t : tree) : tree := node (fd f) (fc f) t (fi f) (fk f) (fv f) (fs f).
Fixpoint plug (ctx : list frame) (t : tree) : tree := match ctx with [] => t | f :: ctx' => plug ctx' (fill f t) end.
Definition entry := (nat * (K * V))%type.
Fixpoint elems (t : tree) : list entry := match t with E => [] | T _ l i k v r => elems l ++ (i, (k, v)) :: elems r end.
Fixpoint bef (ctx : list frame) : list entry :=
  match ctx with
  | [] => []
  | F L _ _ _ _ _ :: ctx' => bef ctx'
  | F R _ i k v s :: ctx' => bef ctx' ++ elems s ++ [(i, (k, v))]
  end.
Fixpoint aft (ctx : list frame) : list entry :=
  match ctx with
  | [] => []
  | F L _ i k v s :: ctx' => (i, (k, v)) :: elems s ++ aft ctx'
  | F R _ _ _ _ _ :: ctx' => aft ctx'
  end.
Lemma elems_plug ctx : forall t, elems (plug ctx t) = bef ctx ++ elems t ++ aft ctx.
Proof.
  induction ctx as [|[[] c i k v s] ctx IH]; intro t; cbn [plug bef aft].
  - rewrite app_nil_r. reflexivity.
  - rewrite IH. cbn. rewrite <- !app_assoc. reflexivity.
  - rewrite IH. cbn. rewrite <- !app_assoc. reflexivity.
Qed.
Lemma plug_app a : forall b t, plug (a ++ b) t = plug b (plug a t).
Proof. induction a as [|f a IH]; intros b t; cbn; [reflexivity|apply IH]. Qed.
Lemma bef_app a : forall b, bef (a ++ b) = bef b ++ bef a.
Proof. induction a as [|[[] c i k v s] a IH]; intro b; cbn [app bef]; [rewrite app_nil_r; reflexivity|apply IH|rewrite IH, <- app_assoc; reflexivity]. Qed.
Lemma aft_app a : forall b, aft (a ++ b) = aft a ++ aft b.
Proof. induction a as [|[[] c i k v s] a IH]; intro b; cbn [app aft]; [reflexivity|rewrite IH; cbn; rewrite <- app_assoc; reflexivity|apply IH]. Qed.

Definition paint (c : color) (t : tree) : tree := match t with E => E | T _ l i k v r => T c l i k v r end.
Definition tred (t : tree) : bool := match t with T Red _ _ _ _ _ => true | _ => false end.
Lemma elems_paint c t : elems (paint c t) = elems t.
Proof. destruct t; reflexivity. Qed.
Definition pick (d : side) {X} (l r : X) : X := match d with L => l | R => r end.
Definition side_eqb (a b : side) : bool := match a, b with L, L => true | R, R => true | _, _ => false end.

(** maintainAfterInsert *)
Fixpoint ins_fix (ctx : list frame) (t : tree) : tree :=
  match ctx with
  | [] => paint Black t
  | F d c i k v s :: ctx' =>
    match c with
    | Black => plug ctx t
    | Red =>
      match ctx' with
      | [] => plug [F d Black i k v s] t
      | F d2 c2 i2 k2 v2 u :: ctx'' =>
        if tred u then ins_fix ctx'' (node d2 Red (node d Black t i k v s) i2 k2 v2 (paint Black u))
        else if side_eqb d d2 then plug ctx'' (node d Black t i k v (node d Red s i2 k2 v2 u))
        else match t with
             | E => plug ctx t
             | T _ a x kx vx b => plug ctx'' (node d2 Black (node d2 Red s i k v (pick d2 a b)) x kx vx (node d2 Red (pick d2 b a) i2 k2 v2 u))
             end
      end
    end
  end.
Lemma elems_ins_fix : forall n ctx t, length ctx < n -> elems (ins_fix ctx t) = elems (plug ctx t).
Proof.
  induction n as [|n IH]; intros ctx t Hn; [lia|]. destruct ctx as [|[d c i k v s] ctx']; [apply elems_paint|]. cbn [ins_fix].
  destruct c; [|reflexivity]. destruct ctx' as [|[d2 c2 i2 k2 v2 u] ctx'']; [destruct d; reflexivity|].
  destruct (tred u).
  - rewrite IH by (cbn in Hn; lia). cbn [plug fill]. rewrite !elems_plug. f_equal. f_equal. destruct d, d2; cbn; rewrite elems_paint; reflexivity.
  - destruct d, d2; cbn [side_eqb].
    + cbn [plug]. rewrite !elems_plug. f_equal. lsimp. reflexivity.
    + destruct t as [|tc a x kx vx b]; [reflexivity|]. cbn [plug]. rewrite !elems_plug. f_equal. lsimp. reflexivity.
    + destruct t as [|tc a x kx vx b]; [reflexivity|]. cbn [plug]. rewrite !elems_plug. f_equal. lsimp. reflexivity.
    + cbn [plug]. rewrite !elems_plug. f_equal. lsimp. reflexivity.
Qed.

(** maintainAfterRemove: the context of the node afterwards; None: an assert fails *)
Definition rem_fix2 (d : side) (c : color) (i : nat) (k : K) (v : V) (s : tree) (ctx' : list frame) (rec : option (list frame)) : option (list frame) :=
  match s with
  | T Black l si sk sv r =>
    let cl := pick d l r in
    let di := pick d r l in
    if negb (tred cl) && negb (tred di) then
      match c with
      | Red => Some (F d Black i k v (paint Red s) :: ctx')
      | Black => match rec with Some ctx'' => Some (F d Black i k v (paint Red s) :: ctx'') | None => None end
      end
    else
      match cl with
      | T Red l1 ci ck cv r1 =>
        if tred (pick d l1 r1) then None
        else Some (F d Black i k v (pick d l1 r1) :: F d c ci ck cv (node d Black (pick d r1 l1) si sk sv di) :: ctx')
      | _ => Some (F d Black i k v cl :: F d c si sk sv (paint Black di) :: ctx')
      end
  | _ => None
  end.
Fixpoint rem_fix (ctx : list frame) : option (list frame) :=
  match ctx with
  | [] => Some []
  | F d c i k v s :: ctx' =>
    match s with
    | E => None
    | T Red l si sk sv r =>
      match c, l, r with
      | Black, T Black _ _ _ _ _, T Black _ _ _ _ _ => rem_fix2 d Red i k v (pick d l r) (F d Black si sk sv (pick d r l) :: ctx') None
      | _, _, _ => None
      end
    | T Black _ _ _ _ _ => rem_fix2 d c i k v s ctx' (rem_fix ctx')
    end
  end.
Lemma rem_fix2_elems d c i k v s ctx' rec ctx2 : rem_fix2 d c i k v s ctx' rec = Some ctx2 ->
  (forall r, rec = Some r -> bef r = bef ctx' /\ aft r = aft ctx') -> bef ctx2 = bef (F d c i k v s :: ctx') /\ aft ctx2 = aft (F d c i k v s :: ctx').
Proof.
  intros H Hr. unfold rem_fix2 in H. destruct s as [|[] l si sk sv r]; try discriminate.
  destruct (negb (tred (pick d l r)) && negb (tred (pick d r l))).
  - destruct c.
    + injection H as <-. destruct d; split; reflexivity.
    + destruct rec as [r0|]; [|discriminate]. injection H as <-. destruct (Hr _ eq_refl) as [B A]. destruct d; cbn; rewrite ?A, ?B; split; reflexivity.
  - destruct (pick d l r) as [|[] l1 ci ck cv r1] eqn:Ec.
    + injection H as <-. destruct d; cbn in Ec |- *; rewrite Ec, ?elems_paint; lsimp; split; reflexivity.
    + destruct (tred (pick d l1 r1)); [discriminate|]. injection H as <-. destruct d; cbn in Ec |- *; rewrite Ec; cbn; lsimp; split; reflexivity.
    + injection H as <-. destruct d; cbn in Ec |- *; rewrite Ec, ?elems_paint; cbn; lsimp; split; reflexivity.
Qed.
Lemma rem_fix_elems ctx : forall ctx2, rem_fix ctx = Some ctx2 -> bef ctx2 = bef ctx /\ aft ctx2 = aft ctx.
Proof.
  induction ctx as [|[d c i k v s] ctx' IH]; intros ctx2 H; cbn [rem_fix] in H; [injection H as <-; auto|].
  destruct s as [|[] l si sk sv r]; [discriminate| |].
  - destruct c; [discriminate|]. destruct l as [|[] l1 i1 k1 v1 r1]; try discriminate. destruct r as [|[] l2 i2 k2 v2 r2]; try discriminate.
    apply rem_fix2_elems in H; [|discriminate]. destruct H as [B A]. destruct d; cbn in B, A |- *; rewrite B, A; lsimp; split; reflexivity.
  - apply rem_fix2_elems in H; [exact H|]. exact IH.
Qed.

(** red-black invariants: rb t c n: no red node has a red child, every path has n black nodes, the root has colour c *)
Inductive rb : tree -> color -> nat -> Prop :=
| rb_E : rb E Black 0
| rb_R l i k v r n : rb l Black n -> rb r Black n -> rb (T Red l i k v r) Red n
| rb_B l i k v r c1 c2 n : rb l c1 n -> rb r c2 n -> rb (T Black l i k v r) Black (S n).
(** colour of the parent of the hole; the header counts as red *)
Definition hc (ctx : list frame) : color := match ctx with [] => Red | f :: _ => fc f end.
(** cok ctx n: plugging a tree of black height n gives a red-black tree, provided one of hole and parent is black *)
Fixpoint cok (ctx : list frame) (n : nat) : Prop :=
  match ctx with
  | [] => True
  | F d Red i k v s :: ctx' => rb s Black n /\ hc ctx' = Black /\ cok ctx' n
  | F d Black i k v s :: ctx' => (exists c, rb s c n) /\ cok ctx' (S n)
  end.
Lemma rb_node d c x i k v y n c1 c2 : rb x c1 n -> rb y c2 n -> (c = Red -> c1 = Black /\ c2 = Black) ->
  rb (node d c x i k v y) c (match c with Red => n | Black => S n end).
Proof.
  intros H1 H2 Hc. destruct c.
  - destruct (Hc eq_refl) as [-> ->]. destruct d; constructor; assumption.
  - destruct d; econstructor; eassumption.
Qed.
Lemma plug_rb ctx : forall t c n, cok ctx n -> rb t c n -> (c = Black \/ hc ctx = Black) -> exists m, rb (plug ctx t) Black m.
Proof.
  induction ctx as [|[d c0 i k v s] ctx IH]; intros t c n Hok Ht Hc; cbn [plug].
  - cbn in Hc. destruct Hc as [-> | ?]; [eauto|discriminate].
  - unfold fill. cbn [fd fc fi fk fv fs]. cbn in Hc. destruct c0; cbn in Hok.
    + destruct Hok as (Hs & Hh & Hk). assert (c = Black) as -> by (destruct Hc; [assumption|discriminate]).
      apply (IH _ Red n); [exact Hk| |right; exact Hh]. apply (rb_node d Red t i k v s n Black Black); auto.
    + destruct Hok as ((c2 & Hs) & Hk). apply (IH _ Black (S n)); [exact Hk| |left; reflexivity].
      apply (rb_node d Black t i k v s n c c2); auto. discriminate.
Qed.
Lemma rb_paint_black t c n : rb t c n -> rb (paint Black t) Black (match c, t with Red, _ => S n | _, _ => n end).
Proof. intro H. inversion H; subst; cbn; try constructor; econstructor; eassumption. Qed.
Lemma rb_tred t c n : rb t c n -> tred t = match c with Red => true | Black => false end.
Proof. intro H. inversion H; reflexivity. Qed.
Lemma rb_pick d l r c1 c2 n : rb l c1 n -> rb r c2 n -> rb (pick d l r) (pick d c1 c2) n.
Proof. destruct d; auto. Qed.
Lemma ins_fix_rb : forall m ctx l i k v r n, length ctx < m -> cok ctx n -> rb l Black n -> rb r Black n -> exists h, rb (ins_fix ctx (T Red l i k v r)) Black h.
Proof.
  induction m as [|m IH]; intros ctx l i k v r n Hm Hok Hl Hr; [lia|]. destruct ctx as [|[d c pi pk pv s] ctx']; cbn [ins_fix].
  - cbn. eexists. econstructor; eassumption.
  - destruct c.
    + cbn in Hok. destruct Hok as (Hs & Hh & Hk). destruct ctx' as [|[d2 c2 i2 k2 v2 u] ctx'']; [discriminate|]. cbn in Hh. subst c2. cbn in Hk.
      destruct Hk as ((cu & Hu) & Hk). assert (Ht : rb (T Red l i k v r) Red n) by (constructor; assumption).
      destruct (tred u) eqn:Eu.
      * assert (cu = Red) as -> by (rewrite (rb_tred _ _ _ Hu) in Eu; destruct cu; congruence).
        pose proof (rb_paint_black _ _ _ Hu) as Hu'. cbn in Hu'.
        pose proof (rb_node d Black (T Red l i k v r) pi pk pv s n Red Black Ht Hs ltac:(discriminate)) as Hp. cbn in Hp.
        destruct d2; cbn [node]; apply (IH ctx'' _ _ _ _ _ (S n)); try assumption; cbn in Hm; lia.
      * assert (cu = Black) as -> by (rewrite (rb_tred _ _ _ Hu) in Eu; destruct cu; congruence).
        destruct (side_eqb d d2) eqn:Ed.
        -- apply (plug_rb ctx'' _ Black (S n)); [exact Hk| |left; reflexivity].
           apply (rb_node d Black _ pi pk pv _ n Red Red); [exact Ht| |discriminate]. apply (rb_node d Red s i2 k2 v2 u n Black Black); auto.
        -- apply (plug_rb ctx'' _ Black (S n)); [exact Hk| |left; reflexivity].
           apply (rb_node d2 Black _ i k v _ n Red Red); [| |discriminate].
           ++ apply (rb_node d2 Red s pi pk pv _ n Black Black); auto. destruct d2; assumption.
           ++ apply (rb_node d2 Red _ i2 k2 v2 u n Black Black); auto. destruct d2; assumption.
    + apply (plug_rb _ _ Red n); [exact Hok|constructor; assumption|right; reflexivity].
Qed.

Lemma rem_fix2_ok d c i k v s ctx' rec n cs : rb s cs (S n) -> cs = Black -> cok (F d c i k v s :: ctx') (S n) ->
  (c = Black -> exists r, rec = Some r /\ cok r (S n)) -> exists ctx2, rem_fix2 d c i k v s ctx' rec = Some ctx2 /\ cok ctx2 n.
Proof.
  intros Hs -> Hok Hrec. unfold rem_fix2. inversion Hs as [| |l si sk sv r c1 c2 m Hl Hr]; subst.
  pose proof (rb_pick d l r c1 c2 n Hl Hr) as Hcl. pose proof (rb_pick d r l c2 c1 n Hr Hl) as Hdi.
  rewrite (rb_tred _ _ _ Hcl), (rb_tred _ _ _ Hdi).
  destruct (pick d c1 c2) eqn:E1.
  - (* close nephew red *) cbn [negb andb]. inversion Hcl as [|l1 ci ck cv r1 m H1 H2|]; subst.
    assert (Ht : tred (pick d l1 r1) = false) by (destruct d; cbn; [rewrite (rb_tred _ _ _ H1)|rewrite (rb_tred _ _ _ H2)]; reflexivity).
    rewrite Ht. eexists. split; [reflexivity|]. cbn [cok].
    assert (Hp1 : rb (pick d l1 r1) Black n) by (destruct d; assumption). assert (Hp2 : rb (pick d r1 l1) Black n) by (destruct d; assumption).
    destruct c; cbn in Hok |- *.
    + destruct Hok as (_ & Hh & Hk). split; [eauto|]. split; [|split; assumption]. apply (rb_node d Black _ si sk sv _ n Black (pick d c2 c1)); auto. discriminate.
    + destruct Hok as (_ & Hk). split; [eauto|]. split; [|assumption]. eexists. apply (rb_node d Black _ si sk sv _ n Black (pick d c2 c1)); auto. discriminate.
  - destruct (pick d c2 c1) eqn:E2; cbn [negb andb].
    + (* distant nephew red *)
      assert (G : exists ctx2, Some (F d Black i k v (pick d l r) :: F d c si sk sv (paint Black (pick d r l)) :: ctx') = Some ctx2 /\ cok ctx2 n).
      { eexists. split; [reflexivity|]. pose proof (rb_paint_black _ _ _ Hdi) as Hp. cbn in Hp. cbn [cok]. destruct c; cbn in Hok |- *.
        - destruct Hok as (_ & Hh & Hk). split; [eauto|]. auto.
        - destruct Hok as (_ & Hk). split; [eauto|]. split; [eauto|exact Hk]. }
      destruct (pick d l r) as [|[] l1 ci ck cv r1]; [exact G|inversion Hcl|exact G].
    + assert (Hps : rb (paint Red (T Black l si sk sv r)) Red n).
      { cbn. assert (c1 = Black /\ c2 = Black) as [-> ->] by (destruct d; cbn in E1, E2; split; assumption). constructor; assumption. }
      destruct c.
      * eexists. split; [reflexivity|]. cbn in Hok |- *. destruct Hok as (_ & Hh & Hk). split; [eauto|assumption].
      * destruct (Hrec eq_refl) as (r0 & -> & Hr0). eexists. split; [reflexivity|]. cbn. split; [eauto|assumption].
Qed.
Lemma rem_fix_ok ctx : forall n, cok ctx (S n) -> exists ctx2, rem_fix ctx = Some ctx2 /\ cok ctx2 n.
Proof.
  induction ctx as [|[d c i k v s] ctx' IH]; intros n Hok; cbn [rem_fix]; [exists []; split; [reflexivity|exact I]|].
  assert (Hs : exists cs, rb s cs (S n) /\ (c = Red -> cs = Black)).
  { destruct c; cbn in Hok; [destruct Hok as (H & _)|destruct Hok as ((c0 & H) & _)]; eexists; (split; [exact H|]); [reflexivity|discriminate]. }
  destruct Hs as (cs & Hs & Hcs). destruct s as [|[] l si sk sv r]; [inversion Hs| |].
  - inversion Hs as [|? ? ? ? ? ? Hl Hr|]; subst. destruct c; [specialize (Hcs eq_refl); discriminate|].
    inversion Hl as [| |l1 i1 k1 v1 r1 a1 a2 m A1 A2]; subst. inversion Hr as [| |l2 i2 k2 v2 r2 b1 b2 m B1 B2]; subst.
    cbn in Hok. destruct Hok as (_ & Hk).
    eapply (rem_fix2_ok d Red i k v _ _ None n Black); [|reflexivity| |discriminate].
    + destruct d; assumption.
    + cbn. destruct d; cbn; (split; [assumption|]); (split; [reflexivity|]); (split; [eauto|exact Hk]).
  - inversion Hs as [| |? ? ? ? ? ? ? ? H1 H2]; subst. apply (rem_fix2_ok d c i k v _ ctx' (rem_fix ctx') n Black); [exact Hs|reflexivity|exact Hok|].
    intros ->. cbn in Hok. destruct Hok as (_ & Hk). destruct (IH (S n) Hk) as (r0 & E0 & Hr0). eauto.
Qed.

(** decomposition of a red-black tree at a subtree *)
Lemma rb_plug_inv ctx : forall t m, rb (plug ctx t) Black m -> exists c n, rb t c n /\ cok ctx n /\ (c = Black \/ hc ctx = Black).
Proof.
  induction ctx as [|[d c0 i k v s] ctx IH]; intros t m H; cbn [plug] in H.
  - exists Black, m. cbn. auto.
  - destruct (IH _ _ H) as (c & n & Ht & Hok & Hc). unfold fill in Ht. cbn [fd fc fi fk fv fs] in Ht.
    destruct d; cbn [node] in Ht; inversion Ht as [|? ? ? ? ? ? H1 H2|? ? ? ? ? c1 c2 ? H1 H2]; subst; cbn.
    + exists Black, n. split; [exact H1|]. split; [|auto]. split; [exact H2|]. split; [destruct Hc; [discriminate|assumption]|exact Hok].
    + eexists _, _. split; [exact H1|]. split; [|auto]. split; [eauto|exact Hok].
    + exists Black, n. split; [exact H2|]. split; [|auto]. split; [exact H1|]. split; [destruct Hc; [discriminate|assumption]|exact Hok].
    + eexists _, _. split; [exact H2|]. split; [|auto]. split; [eauto|exact Hok].
Qed.

(** height and number of nodes *)
Fixpoint height (t : tree) : nat := match t with E => 0 | T _ l _ _ _ r => S (Nat.max (height l) (height r)) end.
Lemma rb_size t c n : rb t c n -> 2 ^ n <= length (elems t) + 1.
Proof. induction 1; cbn [elems]; rewrite ?app_length; cbn [length Nat.pow]; lia. Qed.
Lemma rb_height t c n : rb t c n -> height t <= 2 * n + match c with Red => 1 | Black => 0 end.
Proof.
  induction 1 as [|l i k v r n H1 IH1 H2 IH2|l i k v r c1 c2 n H1 IH1 H2 IH2]; cbn [height]; [lia| |].
  - lia.
  - assert (height l <= 2 * n + 1) by (destruct c1; lia). assert (height r <= 2 * n + 1) by (destruct c2; lia). lia.
Qed.
End Tr.
Arguments E {K V}.
Arguments T {K V}.
Arguments F {K V}.
