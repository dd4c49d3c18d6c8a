(** The operations of the map, under the invariant of its heap. *)
From Verif Require Import Prelude RbModel RbSpec RbTree RbHeap RbHeap2 RbHeap3 RbHeap4 RbHeap5 RbHeap6 RbOps RbOps2.

Section H.
Variables (K V : Type) (eqb ltb : K -> K -> bool) (dk : K) (dv : V).
Notation tree := (tree K V).
Notation frame := (frame K V).
Notation st := (RbModel.st K V).
Notation RC := (RC K V dk dv).
Notation pid := (pid K V).
Notation cid := (cid K V).
Notation ids := (ids K V).
Notation cids := (cids K V).
Notation plug := (plug K V).
Notation keeps := (keeps K V).
Notation bind := (bind K V).
Notation heap := (heap K V).
Notation elems := (elems K V).
Notation bef := (bef K V).
Notation aft := (aft K V).
Notation fid := (fid K V).
Notation lid := (lid K V).
Notation rb := (rb K V).
Implicit Types (t l r : tree) (ctx : list frame) (s : st).

Definition ekey (e : entry K V) : K := fst (snd e).
Definition eval_ (e : entry K V) : V := snd (snd e).
Definition lte (a b : entry K V) : Prop := ltb (ekey a) (ekey b) = true.
Fixpoint srt (l : list (entry K V)) : Prop := match l with [] => True | e :: m => (forall f, In f m -> lte e f) /\ srt m end.
Lemma srt_app p : forall q, srt (p ++ q) <-> srt p /\ srt q /\ (forall a b, In a p -> In b q -> lte a b).
Proof.
  induction p as [|e p IH]; intro q; cbn [app srt].
  - split; [intro H; split; [exact I|]; split; [exact H|intros a b []]|intros (_ & H & _); exact H].
  - rewrite IH. split.
    + intros (A & B & C & D). split; [split; [intros f Hf; apply A; apply in_or_app; auto|exact B]|]. split; [exact C|]. intros a b [<-|Ha] Hb; [apply A; apply in_or_app; auto|auto].
    + intros ((A & B) & C & D). split; [intros f Hf; apply in_app_or in Hf; destruct Hf; [auto|apply D; [left; reflexivity|assumption]]|]. split; [exact B|]. split; [exact C|].
      intros a b Ha Hb. apply D; [right; exact Ha|exact Hb].
Qed.
Definition look (l : list (entry K V)) (k : K) : option V := match find (fun e => eqb k (ekey e)) l with Some e => Some (eval_ e) | None => None end.
Record Inv s t : Prop := {
  iv_rc : RC s [] t (fid (elems t)) (lid (elems t));
  iv_cnt : cnt K V s = length (elems t);
  iv_rb : exists n, rb t Black n;
  iv_srt : srt (elems t) }.
Lemma empty_inv : Inv (empty_map K V dk dv) E.
Proof.
  constructor; [constructor|reflexivity|exists 0; constructor|exact I]; cbn; auto; try constructor; try tauto; try lia.
  destruct (Nat.eqb_spec q hdr) as [->|]; [auto|discriminate].
Qed.

Section O.
Hypothesis ord : total_order K eqb ltb.
Lemma eqb_refl_ k : eqb k k = true.
Proof. apply (to_eq _ _ _ ord). reflexivity. Qed.
Lemma eqb_neq k j : k <> j -> eqb k j = false.
Proof. intro H. destruct (eqb k j) eqn:E; [|reflexivity]. apply (to_eq _ _ _ ord) in E. contradiction. Qed.
Lemma ltb_neq k j : ltb k j = true -> k <> j.
Proof. intros H ->. rewrite (to_irr _ _ _ ord) in H. discriminate. Qed.
Lemma ltb_asym k j : ltb k j = true -> ltb j k = false.
Proof. intro H. destruct (ltb j k) eqn:E; [|reflexivity]. pose proof (to_trans _ _ _ ord _ _ _ H E) as X. rewrite (to_irr _ _ _ ord) in X. discriminate. Qed.
Lemma ltb_ge k j : ltb k j = false -> k <> j -> ltb j k = true.
Proof. intros H N. destruct (to_total _ _ _ ord k j) as [X|[X|X]]; [congruence|contradiction|exact X]. Qed.

Definition bw (k : K) ctx : Prop := (forall e, In e (bef ctx) -> ltb (ekey e) k = true) /\ (forall e, In e (aft ctx) -> ltb k (ekey e) = true).
Lemma zoom_bw k : forall t ctx ctx' t', srt (elems t) -> bw k ctx -> zoom K V eqb ltb k ctx t = (ctx', t') -> bw k ctx'.
Proof.
  induction t as [|c l IHl i kk v r IHr]; intros ctx ctx' t' Hs Hb H; cbn [zoom] in H; [injection H as <- <-; exact Hb|].
  destruct (eqb k kk) eqn:E; [injection H as <- <-; exact Hb|]. assert (N : k <> kk) by (intros ->; rewrite eqb_refl_ in E; discriminate).
  cbn [RbTree.elems] in Hs. apply srt_app in Hs. destruct Hs as (Sl & (Sr1 & Sr) & Slr). destruct Hb as [B A].
  destruct (ltb k kk) eqn:Lt.
  - apply (IHl _ _ _ Sl) in H; [exact H|]. split; [exact B|]. cbn [RbTree.aft]. intros e [<-|He]; [exact Lt|]. apply in_app_or in He. destruct He as [He|He]; [|auto].
    apply (to_trans _ _ _ ord _ _ _ Lt). exact (Sr1 e He).
  - pose proof (ltb_ge _ _ Lt N) as Gt. apply (IHr _ _ _ Sr) in H; [exact H|]. split; [|exact A]. cbn [RbTree.bef]. intros e He. apply in_app_or in He. destruct He as [He|He]; [auto|].
    apply in_app_or in He. destruct He as [He|[<-|[]]]; [|exact Gt]. apply (to_trans _ _ _ ord _ kk); [|exact Gt]. exact (Slr _ _ He (or_introl eq_refl)).
Qed.
Lemma bw_nil k : bw k [].
Proof. split; intros e []. Qed.
(** the result of a search: where key k is, or where it belongs *)
Lemma zoom_inv k t ctx' t' : srt (elems t) -> zoom K V eqb ltb k [] t = (ctx', t') ->
  exists p q, (forall e, In e p -> ltb (ekey e) k = true) /\ (forall e, In e q -> ltb k (ekey e) = true) /\
    match t' with
    | E => p = bef ctx' /\ q = aft ctx' /\ elems t = p ++ q
    | T c l i kk v r => kk = k /\ p = bef ctx' ++ elems l /\ q = elems r ++ aft ctx' /\ elems t = p ++ (i, (k, v)) :: q
    end.
Proof.
  intros Hs Hz. pose proof (zoom_bw k t [] ctx' t' Hs (bw_nil k) Hz) as [B A]. pose proof (zoom_plug K V eqb ltb k _ _ _ _ Hz) as P. cbn [RbTree.plug] in P.
  assert (El : elems t = bef ctx' ++ elems t' ++ aft ctx') by (rewrite <- P, elems_plug; reflexivity).
  destruct t' as [|c l i kk v r].
  - exists (bef ctx'), (aft ctx'). repeat split; auto.
  - apply zoom_hit in Hz. apply (to_eq _ _ _ ord) in Hz. subst kk. cbn [RbTree.elems] in El. rewrite El in Hs.
    replace (bef ctx' ++ (elems l ++ (i, (k, v)) :: elems r) ++ aft ctx') with ((bef ctx' ++ elems l) ++ (i, (k, v)) :: elems r ++ aft ctx') in * by (rewrite <- !app_assoc; reflexivity).
    apply srt_app in Hs. destruct Hs as (_ & (S1 & _) & S2). exists (bef ctx' ++ elems l), (elems r ++ aft ctx'). repeat split; auto.
    intros e He. exact (S2 e _ He (or_introl eq_refl)).
Qed.
Lemma srt_insert p i k v q : srt (p ++ q) -> (forall e, In e p -> ltb (ekey e) k = true) -> (forall e, In e q -> ltb k (ekey e) = true) -> srt (p ++ (i, (k, v)) :: q).
Proof.
  intros H A B. apply srt_app in H. destruct H as (Hp & Hq & Hpq). apply srt_app. split; [exact Hp|]. split; [split; [exact B|exact Hq]|]. intros a b Ha [<-|Hb]; [exact (A a Ha)|auto].
Qed.
Lemma srt_remove p e q : srt (p ++ e :: q) -> srt (p ++ q).
Proof. intro H. apply srt_app in H. destruct H as (Hp & (_ & Hq) & Hpq). apply srt_app. split; [exact Hp|]. split; [exact Hq|]. intros a b Ha Hb. apply Hpq; [exact Ha|right; exact Hb]. Qed.
Lemma srt_value p i k v v' q : srt (p ++ (i, (k, v)) :: q) -> srt (p ++ (i, (k, v')) :: q).
Proof.
  intro H. apply srt_app in H. destruct H as (Hp & (Hq1 & Hq) & Hpq). apply srt_app. split; [exact Hp|]. split; [split; [exact Hq1|exact Hq]|].
  intros a b Ha [<-|Hb]; [exact (Hpq a _ Ha (or_introl eq_refl))|apply Hpq; [exact Ha|right; exact Hb]].
Qed.

(** lookup *)
Lemma look_hit p i k v q : (forall e, In e p -> ltb (ekey e) k = true) -> look (p ++ (i, (k, v)) :: q) k = Some v.
Proof.
  intro H. unfold look. induction p as [|e p IH]; cbn [app find].
  - cbn [ekey snd fst]. rewrite eqb_refl_. reflexivity.
  - rewrite eqb_neq; [apply IH; intros f Hf; apply H; right; exact Hf|]. intros ->. specialize (H e (or_introl eq_refl)). rewrite (to_irr _ _ _ ord) in H. discriminate.
Qed.
Lemma look_miss p k q : (forall e, In e p -> ltb (ekey e) k = true) -> (forall e, In e q -> ltb k (ekey e) = true) -> look (p ++ q) k = None.
Proof.
  intros A B. unfold look. assert (X : forall e, In e (p ++ q) -> eqb k (ekey e) = false).
  { intros e He. apply in_app_or in He. apply eqb_neq. destruct He as [He|He]; [apply not_eq_sym|]; apply ltb_neq; auto. }
  induction (p ++ q) as [|e l IH]; [reflexivity|]. cbn [find]. rewrite X by (left; reflexivity). apply IH. intros f Hf. apply X. right. exact Hf.
Qed.
Lemma look_other p i k v q j : j <> k -> look (p ++ (i, (k, v)) :: q) j = look (p ++ q) j.
Proof.
  intro N. unfold look. assert (Ef : find (fun e => eqb j (ekey e)) (p ++ (i, (k, v)) :: q) = find (fun e => eqb j (ekey e)) (p ++ q)); [|rewrite Ef; reflexivity].
  induction p as [|e p IH]; cbn [app find]; [cbn [ekey snd fst]; rewrite eqb_neq by exact N; reflexivity|]. rewrite IH. reflexivity.
Qed.
Lemma look_in (l : list (entry K V)) k v : srt l -> (look l k = Some v <-> In (k, v) (map snd l)).
Proof.
  intro Hs. unfold look. split.
  - destruct (find _ l) as [e|] eqn:Ef; [|discriminate]. intro X. injection X as <-. apply find_some in Ef. destruct Ef as [Hi He]. apply (to_eq _ _ _ ord) in He. subst k.
    apply in_map_iff. exists e. split; [destruct e as [i [k v]]; reflexivity|exact Hi].
  - intro H. apply in_map_iff in H. destruct H as ([i [k' v']] & X & Hi). injection X as -> ->. apply in_split in Hi. destruct Hi as (p & q & ->).
    apply (look_hit p i k v q). intros e He. apply srt_app in Hs. destruct Hs as (_ & _ & X). exact (X e _ He (or_introl eq_refl)).
Qed.

(** operations *)
Lemma Inv_root {s t} : Inv s t -> root K V s = pid t.
Proof. intro H. exact (rc_root _ _ _ _ _ _ _ _ _ (iv_rc _ _ H)). Qed.
Lemma Inv_fuel {s t} : Inv s t -> length (ids t) <= next K V s.
Proof. intro H. pose proof (RC_size (iv_rc _ _ H)). lia. Qed.
Lemma Inv_null {s t} : Inv s t -> null (pid t) = match t with E => true | _ => false end.
Proof. intro H. exact (null_pid K V dk dv (iv_rc _ _ H)). Qed.

Lemma link_inv {s t} k v ctx' d gc pi pk pv x : Inv s t -> zoom K V eqb ltb k [] t = (F d gc pi pk pv x :: ctx', E) ->
  exists s' t' p q, link_new K V d pi k v s = Some (next K V s, s') /\ Inv s' t' /\ elems t = p ++ q /\ elems t' = p ++ (next K V s, (k, v)) :: q /\
    (forall e, In e p -> ltb (ekey e) k = true) /\ (forall e, In e q -> ltb k (ekey e) = true).
Proof.
  intros H Hz. destruct (zoom_inv k t _ _ (iv_srt _ _ H) Hz) as (p & q & A & B & Ep & Eq & El). subst p q.
  destruct (iv_rb _ _ H) as (m & Hm). pose proof (zoom_RC K V eqb ltb dk dv k _ _ _ _ _ _ Hz (iv_rc _ _ H)) as HR. rewrite El in HR.
  pose proof (zoom_plug K V eqb ltb k _ _ _ _ Hz) as P. cbn [RbTree.plug] in P. change (plug ctx' (fill K V (F d gc pi pk pv x) E)) with (plug (F d gc pi pk pv x :: ctx') E) in P. rewrite <- P in Hm.
  destruct (link_new_run K V dk dv k v HR Hm) as (s' & t' & R' & E' & H' & B' & C'). exists s', t', (bef (F d gc pi pk pv x :: ctx')), (aft (F d gc pi pk pv x :: ctx')).
  split; [exact R'|]. split; [|auto]. constructor; [exact H'|rewrite C', E', (iv_cnt _ _ H), El, !app_length; cbn [length]; lia|exact B'|].
  rewrite E'. apply srt_insert; auto. rewrite <- El. exact (iv_srt _ _ H).
Qed.
Lemma first_inv {s} k v : Inv s E -> exists s', first_node K V k v s = Some (next K V s, s') /\ Inv s' (T Black E (next K V s) k v E).
Proof.
  intro H. destruct (first_node_run K V dk dv k v (iv_rc _ _ H)) as (s' & R' & H' & C'). exists s'. split; [exact R'|].
  constructor; [exact H'|rewrite C', (iv_cnt _ _ H); reflexivity|exists 1; econstructor; constructor|]. split; [intros f []|exact I].
Qed.
(** changing the value of an entry *)
Lemma value_inv {s t} p i k v0 q f v : Inv s t -> elems t = p ++ (i, (k, v0)) :: q -> (forall n, f n = w_val K V v n) ->
  exists s' t', wr K V i f s = Some (tt, s') /\ Inv s' t' /\ elems t' = p ++ (i, (k, v)) :: q.
Proof.
  intros H El Hf.
  assert (Hi : In i (ids t)) by (unfold RbHeap.ids; rewrite El, map_app; apply in_or_app; right; left; reflexivity).
  destruct (in_split_tree K V t i Hi) as (ctx & c & l & k' & v' & r & Et).
  assert (HR : RC s ctx (T c l i k' v' r) (fid (elems t)) (lid (elems t))) by (apply (proj2 (RC_plug _ _ _ _ _ _ _ _ _)); rewrite <- Et; exact (iv_rc _ _ H)).
  destruct (write_node (f := f) (c' := c) (v' := v) HR) as (s' & R' & H' & C' & N'); [rewrite Hf; reflexivity|].
  assert (El2 : elems t = (bef ctx ++ elems l) ++ (i, (k', v')) :: (elems r ++ aft ctx)) by (rewrite Et, elems_plug; cbn [RbTree.elems]; rewrite <- !app_assoc; reflexivity).
  assert (X : bef ctx ++ elems l = p /\ elems r ++ aft ctx = q /\ k' = k /\ v' = v0).
  { pose proof (RC_elems_nd K V dk dv (iv_rc _ _ H)) as Nd. cbn [RbTree.bef RbTree.aft app] in Nd. rewrite app_nil_r, El in Nd. rewrite El2 in El. clear - El Nd.
    revert p El Nd. generalize (bef ctx ++ elems l). intro p'. induction p' as [|e p' IH]; intros p El Nd.
    - destruct p as [|e' p]; cbn in El; [injection El as -> -> ->; auto|]. exfalso. injection El as <- Eq. cbn in Nd. inversion Nd as [|? ? Ni _]; subst. apply Ni. rewrite map_app. apply in_or_app. right. left. reflexivity.
    - destruct p as [|e' p]; cbn in El.
      + exfalso. injection El as -> Eq. cbn in Nd. inversion Nd as [|? ? Ni _]; subst. apply Ni. rewrite map_app. apply in_or_app. right. left. reflexivity.
      + injection El as -> Eq. cbn in Nd. inversion Nd; subst. destruct (IH p Eq) as (-> & -> & -> & ->); [assumption|]. auto. }
  destruct X as (Xp & Xq & -> & ->).
  assert (E' : elems (plug ctx (T c l i k v r)) = p ++ (i, (k, v)) :: q) by (rewrite elems_plug; cbn [RbTree.elems]; rewrite <- Xp, <- Xq, <- !app_assoc; reflexivity).
  exists s', (plug ctx (T c l i k v r)). split; [exact R'|]. split; [|exact E'].
  assert (Ef : fid (p ++ (i, (k, v)) :: q) = fid (elems t)) by (rewrite El; destruct p; reflexivity).
  assert (Eg : lid (p ++ (i, (k, v)) :: q) = lid (elems t)) by (rewrite El, !lid_cons; unfold RbHeap6.lid; reflexivity).
  constructor; rewrite ?E'.
  - rewrite Ef, Eg. exact (RC_all H').
  - rewrite C', (iv_cnt _ _ H), El, !app_length. reflexivity.
  - destruct (iv_rb _ _ H) as (m & Hm). rewrite Et in Hm. destruct (rb_plug_inv K V _ _ _ Hm) as (c1 & n & B1 & C1 & D1).
    apply (plug_rb K V ctx _ c1 n); [exact C1| |exact D1]. inversion B1; subst; econstructor; eassumption.
  - apply (srt_value p i k v0). rewrite <- El. exact (iv_srt _ _ H).
Qed.
Lemma insert_inv {s t} k v : Inv s t -> exists s' t' p i q, insert K V eqb ltb k v s = Some (tt, s') /\ Inv s' t' /\ elems t' = p ++ (i, (k, v)) :: q /\
  (elems t = p ++ q \/ exists v0, elems t = p ++ (i, (k, v0)) :: q) /\ (forall e, In e p -> ltb (ekey e) k = true) /\ (forall e, In e q -> ltb k (ekey e) = true).
Proof.
  intro H. unfold insert. rewrite (bind_run (eq_refl : get_root K V s = Some (root K V s, s))). rewrite (Inv_root H), (Inv_null H).
  destruct t as [|c l i kk w r].
  - destruct (first_inv k v H) as (s' & R' & H'). rewrite (bind_run R'). exists s', (T Black E (next K V s) k v E), [], (next K V s), []. split; [reflexivity|]. split; [exact H'|]. split; [reflexivity|]. split; [auto|]. split; intros e [].
  - set (t := T c l i kk w r) in *. rewrite (bind_run (eq_refl : get_fuel K V s = Some (next K V s, s))).
    rewrite (insert_at_run K V eqb ltb dk dv k v t (next K V s) s [] _ _ ltac:(discriminate) (iv_rc _ _ H) (Inv_fuel H)).
    destruct (zoom K V eqb ltb k [] t) as [ctx' t'] eqn:Hz. destruct t' as [|c' l' i' k' v' r'].
    + destruct ctx' as [|[d gc pi pk pv x] ctx']; [exfalso; destruct (zoom_ext K V eqb ltb k t [] _ _ Hz) as (c1 & Ec & Nc); rewrite app_nil_r in Ec; symmetry in Ec; exact (Nc ltac:(discriminate) eq_refl Ec)|].
      destruct (link_inv k v _ _ _ _ _ _ _ H Hz) as (s' & t2 & p & q & R' & H' & E1 & E2 & A & B). exists s', t2, p, (next K V s), q. rewrite (bind_run R'). split; [reflexivity|]. auto.
    + destruct (zoom_inv k t _ _ (iv_srt _ _ H) Hz) as (p & q & A & B & -> & _ & _ & El).
      destruct (value_inv p i' k v' q (w_val K V v) v H El (fun n => eq_refl)) as (s' & t2 & R' & H' & E2). exists s', t2, p, i', q. 
      split; [destruct ctx' as [|[]]; exact R'|]. split; [exact H'|]. split; [exact E2|]. split; [right; exists v'; exact El|auto].
Qed.
Lemma index_inv {s t} k : Inv s t -> exists s' t' p i v q, index K V eqb ltb dv k s = Some (i, s') /\ Inv s' t' /\ elems t' = p ++ (i, (k, v)) :: q /\
  (elems t = p ++ q /\ v = dv \/ elems t = p ++ (i, (k, v)) :: q) /\ (forall e, In e p -> ltb (ekey e) k = true) /\ (forall e, In e q -> ltb k (ekey e) = true).
Proof.
  intro H. unfold index. rewrite (bind_run (eq_refl : get_root K V s = Some (root K V s, s))). rewrite (Inv_root H), (Inv_null H).
  destruct t as [|c l i kk w r].
  - destruct (first_inv k dv H) as (s' & R' & H'). exists s', (T Black E (next K V s) k dv E), [], (next K V s), dv, []. split; [exact R'|]. split; [exact H'|]. split; [reflexivity|]. split; [auto|]. split; intros e [].
  - set (t := T c l i kk w r) in *. rewrite (bind_run (eq_refl : get_fuel K V s = Some (next K V s, s))).
    rewrite (provide_run K V eqb ltb dk dv k t (next K V s) s [] _ _ ltac:(discriminate) (iv_rc _ _ H) (Inv_fuel H)).
    destruct (zoom K V eqb ltb k [] t) as [ctx' t'] eqn:Hz. destruct t' as [|c' l' i' k' v' r'].
    + destruct ctx' as [|[d gc pi pk pv x] ctx']; [exfalso; destruct (zoom_ext K V eqb ltb k t [] _ _ Hz) as (c1 & Ec & Nc); rewrite app_nil_r in Ec; symmetry in Ec; exact (Nc ltac:(discriminate) eq_refl Ec)|].
      destruct (link_inv k dv _ _ _ _ _ _ _ H Hz) as (s' & t2 & p & q & R' & H' & E1 & E2 & A & B). exists s', t2, p, (next K V s), dv, q. split; [exact R'|]. split; [exact H'|]. split; [exact E2|]. split; [left; auto|auto].
    + destruct (zoom_inv k t _ _ (iv_srt _ _ H) Hz) as (p & q & A & B & -> & _ & _ & El). exists s, t, p, i', v', q.
      split; [destruct ctx' as [|[]]; reflexivity|]. split; [exact H|]. split; [exact El|]. split; [right; exact El|auto].
Qed.
Lemma rd_entry {s t} p i k v q : Inv s t -> elems t = p ++ (i, (k, v)) :: q -> exists n, heap s i = Some n /\ nkey K V n = k /\ nval K V n = v.
Proof.
  intros H El. assert (Hi : In (i, (k, v)) (elems t)) by (rewrite El; apply in_or_app; right; left; reflexivity). pose proof (rc_t _ _ _ _ _ _ _ _ _ (iv_rc _ _ H)) as Hr. revert Hi Hr.
  cbn [RbHeap.cid]. generalize 1. clear. induction t as [|c l IHl j kk w r IHr]; intros par Hi Hr; [destruct Hi|]. cbn in Hr. destruct Hr as (A & B & C). cbn [RbTree.elems] in Hi.
  apply in_app_or in Hi. destruct Hi as [Hi|[Hi|Hi]]; [eauto| |eauto]. injection Hi as -> -> ->. eexists. split; [exact A|]. auto.
Qed.
Lemma get_inv {s t} k : Inv s t -> get K V eqb ltb k s = Some (look (elems t) k, s).
Proof.
  intro H. unfold get. rewrite (bind_run (eq_refl : get_root K V s = Some (root K V s, s))). rewrite (Inv_root H), (Inv_null H).
  destruct t as [|c l i kk w r]; [reflexivity|]. set (t := T c l i kk w r) in *. rewrite (bind_run (eq_refl : get_fuel K V s = Some (next K V s, s))).
  rewrite (bind_run (get_node_run K V eqb ltb dk dv k t (next K V s) s [] _ _ ltac:(discriminate) (iv_rc _ _ H) (Inv_fuel H))).
  destruct (zoom K V eqb ltb k [] t) as [ctx' t'] eqn:Hz. cbn [snd]. rewrite (null_pid K V dk dv (zoom_RC K V eqb ltb dk dv k _ _ _ _ _ _ Hz (iv_rc _ _ H))).
  destruct (zoom_inv k t _ _ (iv_srt _ _ H) Hz) as (p & q & A & B & X). destruct t' as [|c' l' i' k' v' r'].
  - destruct X as (_ & _ & ->). rewrite look_miss by assumption. reflexivity.
  - destruct X as (-> & _ & _ & El). cbn [RbHeap.pid]. destruct (rd_entry p i' k v' q H El) as (n & Hn & _ & Hv). rewrite (bind_run (rd_run Hn)). rewrite Hv, El, look_hit by exact A. reflexivity.
Qed.
Lemma remove_inv {s t} k : Inv s t -> t <> E ->
  (look (elems t) k = None /\ remove K V eqb ltb (next K V s) (root K V s) k s = Some (false, s)) \/
  (exists s' t' p i v q, remove K V eqb ltb (next K V s) (root K V s) k s = Some (true, s') /\ Inv s' t' /\ elems t = p ++ (i, (k, v)) :: q /\ elems t' = p ++ q /\ 
    (forall e, In e p -> ltb (ekey e) k = true) /\ (forall e, In e q -> ltb k (ekey e) = true)).
Proof.
  intros H Ht. rewrite (Inv_root H). destruct (zoom K V eqb ltb k [] t) as [ctx' t'] eqn:Hz. destruct (zoom_inv k t _ _ (iv_srt _ _ H) Hz) as (p & q & A & B & X). destruct t' as [|c' l' i' k' v' r'].
  - left. destruct X as (_ & _ & El). split; [rewrite El; apply look_miss; assumption|].
    eapply remove_miss; [exact Ht|exact (iv_rc _ _ H)|exact (Inv_fuel H)|rewrite Hz; reflexivity].
  - right. destruct X as (-> & Ep & Eq & El). pose proof (zoom_RC K V eqb ltb dk dv k _ _ _ _ _ _ Hz (iv_rc _ _ H)) as HR.
    pose proof (zoom_plug K V eqb ltb k _ _ _ _ Hz) as P. cbn [RbTree.plug] in P. destruct (iv_rb _ _ H) as (m & Hm). pose proof (iv_cnt _ _ H) as Hc. rewrite <- P in Hm, Hc, HR.
    rewrite elems_plug in HR, Hc. destruct (remove_node_run K V dk dv HR Hm Hc) as (s0 & t2 & R0 & E0 & H0 & B0 & C0).
    assert (E2 : elems t2 = p ++ q) by (rewrite E0, Ep, Eq, <- !app_assoc; reflexivity).
    rewrite <- elems_plug, P in HR.
    destruct (remove_hit K V eqb ltb dk dv k s0 t2 _ _ H0 t (next K V s) s [] ctx' c' l' i' k v' r' _ _ (iv_rc _ _ H) (Inv_fuel H) Hz R0) as (s1 & R1 & H1 & (K1 & K2)).
    { intros f Hf. unfold RbHeap.ids. rewrite E0. assert (Y : In (fi K V f) (map fst (bef ctx' ++ aft ctx'))).
      { clear - Hf. induction ctx' as [|g ctx' IH]; [destruct Hf|]. rewrite map_app in *. destruct Hf as [->|Hf].
        - destruct f as [[] gc gi gk gv gx]; cbn [RbTree.bef RbTree.aft fi]; rewrite ?map_app; cbn [map fst]; rewrite !in_app_iff; cbn; auto.
        - specialize (IH Hf). apply in_app_or in IH. destruct g as [[] gc gi gk gv gx]; cbn [RbTree.bef RbTree.aft]; rewrite ?map_app; cbn [map fst]; rewrite ?map_app; rewrite !in_app_iff; cbn [In]; rewrite ?in_app_iff; tauto. }
      rewrite !map_app in *. rewrite !in_app_iff in *. tauto. }
    exists s1, t2, p, i', v', q. split; [exact R1|]. split; [|split; [exact El|]; split; [exact E2|auto]].
    constructor; [exact H1|congruence|exact B0|]. rewrite E2. pose proof (iv_srt _ _ H) as Ss. rewrite El in Ss. exact (srt_remove p (i', (k, v')) q Ss).
Qed.
End O.
End H.
