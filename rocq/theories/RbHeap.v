(** The heap of an RBTreeMap represents a tree; effect of the heap operations on that tree. *)
From Verif Require Import Prelude RbModel RbTree.

Lemma nd_app {A} (a b : list A) : NoDup (a ++ b) -> NoDup a /\ NoDup b /\ (forall q, In q a -> ~ In q b).
Proof.
  induction a as [|x a IH]; cbn [app]; intro H; [repeat split; [constructor|exact H|contradiction]|].
  inversion H as [|? ? N1 N2]; subst. destruct (IH N2) as (A1 & A2 & A3). repeat split; [|exact A2|].
  - constructor; [|exact A1]. intro X. apply N1, in_or_app. auto.
  - intros q [->|Hq]; [|auto]. intro X. apply N1, in_or_app. auto.
Qed.

Section H.
Variables (K V : Type) (dk : K) (dv : V).
Notation tree := (tree K V).
Notation frame := (frame K V).
Notation node := (RbModel.node K V).
Notation st := (RbModel.st K V).
Notation mkN := (RbModel.mkN K V).
Notation put := (put K V).
Implicit Types (t l r x y z u : tree) (ctx : list frame) (s : st) (h : nat -> option node).
Definition pid t : nat := match t with E => 0 | T _ _ i _ _ _ => i end.
Definition cid ctx : nat := match ctx with [] => 1 | f :: _ => fi _ _ f end.
Definition ids t : list nat := map fst (elems K V t).
Fixpoint cids ctx : list nat := match ctx with [] => [] | f :: ctx' => fi _ _ f :: ids (fs _ _ f) ++ cids ctx' end.
Fixpoint rid ctx (p : nat) : nat := match ctx with [] => p | f :: ctx' => rid ctx' (fi _ _ f) end.
Fixpoint rep h (par : nat) t : Prop :=
  match t with E => True | T c l i k v r => h i = Some (mkN c par (pid l) (pid r) k v) /\ rep h i l /\ rep h i r end.
Definition mkF (d : side) (c : color) (par p q : nat) (k : K) (v : V) : node := match d with L => mkN c par p q k v | R => mkN c par q p k v end.
Fixpoint repc h ctx (p : nat) : Prop :=
  match ctx with
  | [] => True
  | F d c i k v s :: ctx' => h i = Some (mkF d c (cid ctx') p (pid s) k v) /\ rep h i s /\ repc h ctx' i
  end.
Record RC s ctx t (a b : nat) : Prop := {
  rc_c : repc (heap _ _ s) ctx (pid t);
  rc_t : rep (heap _ _ s) (cid ctx) t;
  rc_nd : NoDup (ids t ++ cids ctx);
  rc_rng : forall i, In i (ids t ++ cids ctx) -> 2 <= i < next _ _ s;
  rc_root : root _ _ s = rid ctx (pid t);
  rc_hdr : heap _ _ s 1 = Some (mkN Red (rid ctx (pid t)) a b dk dv);
  rc_dom : forall q n, heap _ _ s q = Some n -> q = 1 \/ In q (ids t ++ cids ctx);
  rc_next : 2 <= next _ _ s }.

Lemma ids_T c l i k v r : ids (T c l i k v r) = ids l ++ i :: ids r.
Proof. unfold ids. cbn. rewrite map_app. reflexivity. Qed.
Lemma pid_in t : pid t <> 0 -> In (pid t) (ids t).
Proof. destruct t; cbn [pid]; [lia|]. intros _. rewrite ids_T. apply in_or_app. right. left. reflexivity. Qed.
Lemma put_eq h p o : put h p o p = o.
Proof. unfold RbModel.put. rewrite Nat.eqb_refl. reflexivity. Qed.
Lemma put_neq h p o q : q <> p -> put h p o q = h q.
Proof. intro H. unfold RbModel.put. apply Nat.eqb_neq in H. rewrite H. reflexivity. Qed.
Lemma rep_ext h h' t : forall par, (forall q, In q (ids t) -> h' q = h q) -> rep h par t -> rep h' par t.
Proof.
  induction t as [|c l IHl i k v r IHr]; intros par E H; [exact I|]. rewrite ids_T in E. cbn in H |- *. destruct H as (H1 & H2 & H3).
  split; [rewrite E; [exact H1|apply in_or_app; right; left; reflexivity]|].
  split; [apply IHl|apply IHr]; try assumption; intros q Hq; apply E, in_or_app; cbn; auto.
Qed.
Lemma repc_ext h h' ctx : forall p, (forall q, In q (cids ctx) -> h' q = h q) -> repc h ctx p -> repc h' ctx p.
Proof.
  induction ctx as [|[d c i k v s] ctx IH]; intros p E H; [exact I|]. cbn in E, H |- *. destruct H as (H1 & H2 & H3).
  split; [rewrite E; auto|]. split; [apply (rep_ext h); [|exact H2]|apply IH; [|exact H3]]; intros q Hq; apply E; right; apply in_or_app; auto.
Qed.
Lemma rep_put h p o par t : ~ In p (ids t) -> rep h par t -> rep (put h p o) par t.
Proof. intro N. apply rep_ext. intros q Hq. apply put_neq. congruence. Qed.
Lemma repc_put h p (o : option node) ctx (w : nat) : ~ In p (cids ctx) -> repc h ctx w -> repc (put h p o) ctx w.
Proof. intro N. apply repc_ext. intros q Hq. apply put_neq. congruence. Qed.

(** refocusing *)
Lemma RC_fill s f ctx t a b : RC s (f :: ctx) t a b <-> RC s ctx (fill K V f t) a b.
Proof.
  destruct f as [d c i k v x].
  assert (P : Permutation (ids t ++ cids (F d c i k v x :: ctx)) (ids (fill K V (F d c i k v x) t) ++ cids ctx)).
  { cbn [cids fi fs]. unfold fill. cbn [fd fc fi fk fv fs]. destruct d; cbn [RbTree.node]; rewrite ids_T, <- app_assoc; cbn [app]; [reflexivity|].
    rewrite Permutation_app_comm. cbn [app]. rewrite <- Permutation_middle. apply perm_skip. rewrite <- app_assoc. apply Permutation_app_head, Permutation_app_comm. }
  assert (Pi : pid (fill K V (F d c i k v x) t) = i) by (destruct d; reflexivity).
  split; intros [H1 H2 H3 H4 H5 H6 H7 H8]; constructor.
  - cbn in H1. rewrite Pi. apply H1.
  - cbn in H1, H2. destruct H1 as (A & B & C). destruct d; cbn; cbn in A; auto.
  - eapply Permutation_NoDup; [exact P|exact H3].
  - intros j Hj. apply H4. eapply Permutation_in; [symmetry; exact P|exact Hj].
  - rewrite Pi. exact H5.
  - rewrite Pi. exact H6.
  - intros q n Hq. destruct (H7 q n Hq) as [|Hi]; [auto|]. right. eapply Permutation_in; [exact P|exact Hi].
  - exact H8.
  - rewrite Pi in H1. destruct d; cbn in H2 |- *; tauto.
  - destruct d; cbn in H2 |- *; tauto.
  - eapply Permutation_NoDup; [symmetry; exact P|exact H3].
  - intros j Hj. apply H4. eapply Permutation_in; [exact P|exact Hj].
  - rewrite Pi in H5. exact H5.
  - rewrite Pi in H6. exact H6.
  - intros q n Hq. destruct (H7 q n Hq) as [|Hi]; [auto|]. right. eapply Permutation_in; [symmetry; exact P|exact Hi].
  - exact H8.
Qed.
Lemma RC_up s f ctx t a b : RC s (f :: ctx) t a b -> RC s ctx (fill K V f t) a b.
Proof. apply RC_fill. Qed.
Lemma RC_plug ctx : forall s t a b, RC s ctx t a b <-> RC s [] (plug K V ctx t) a b.
Proof. induction ctx as [|f ctx IH]; intros; cbn [plug]; [reflexivity|]. rewrite RC_fill. apply IH. Qed.
Lemma RC_all s ctx t a b : RC s ctx t a b -> RC s [] (plug K V ctx t) a b.
Proof. apply (proj1 (RC_plug ctx s t a b)). Qed.
Lemma RC_app ctx1 : forall ctx2 s t a b, RC s (ctx1 ++ ctx2) t a b <-> RC s ctx2 (plug K V ctx1 t) a b.
Proof. intros. rewrite RC_plug, plug_app, <- RC_plug. reflexivity. Qed.

(** reads *)
Lemma rd_focus s ctx c l i k v r a b : RC s ctx (T c l i k v r) a b -> heap _ _ s i = Some (mkN c (cid ctx) (pid l) (pid r) k v).
Proof. intro H. apply (rc_t _ _ _ _ _ H). Qed.
Lemma rd_parent s d c i k v x ctx t a b : RC s (F d c i k v x :: ctx) t a b -> heap _ _ s i = Some (mkF d c (cid ctx) (pid t) (pid x) k v).
Proof. intro H. apply (rc_c _ _ _ _ _ H). Qed.
Lemma bind_run {A B} (m : M K V A) (f : A -> M K V B) s (w : A) s' : m s = Some (w, s') -> bind K V m f s = f w s'.
Proof. intro H. unfold bind. rewrite H. reflexivity. Qed.
Lemma rd_run p s n : heap _ _ s p = Some n -> rd K V p s = Some (n, s).
Proof. intro H. unfold rd. rewrite H. reflexivity. Qed.
Lemma wr_run p f s n : heap _ _ s p = Some n -> wr K V p f s = Some (tt, mkS _ _ (put (heap _ _ s) p (Some (f n))) (root _ _ s) (cnt _ _ s) (next _ _ s)).
Proof. intro H. unfold wr. rewrite H. reflexivity. Qed.
Lemma rid_top ctx p f : In (rid (f :: ctx) p) (cids (f :: ctx)).
Proof. revert p f. induction ctx as [|g ctx IH]; intros p f; [left; reflexivity|]. cbn [rid cids]. right. apply in_or_app. right. apply (IH p g). Qed.
Lemma is_root_run s ctx t a b : RC s ctx t a b -> pid t <> 0 -> is_root K V (pid t) s = Some (match ctx with [] => true | _ => false end, s).
Proof.
  intros H Ht. unfold is_root, get_root, bind, ret. cbn. rewrite (rc_root _ _ _ _ _ H). f_equal. f_equal. destruct ctx as [|f ctx]; [apply Nat.eqb_refl|].
  apply Nat.eqb_neq. intro E. pose proof (rid_top ctx (pid t) f) as I. cbn [rid] in *. rewrite E in I. pose proof (rc_nd _ _ _ _ _ H) as N.
  apply nd_app in N. destruct N as (_ & _ & N). exact (N _ (pid_in t Ht) I).
Qed.
Definition cdir ctx : dir := match ctx with [] => DRoot | F d _ _ _ _ _ :: _ => DSide d end.
Lemma direction_run s ctx t a b : RC s ctx t a b -> pid t <> 0 -> get_direction K V (pid t) s = Some (cdir ctx, s).
Proof.
  intros H Ht. unfold get_direction. rewrite (bind_run _ _ _ _ _ (is_root_run _ _ _ _ _ H Ht)).
  destruct ctx as [|[d c i k v x] ctx]; [reflexivity|]. destruct t as [|tc l ti tk tv r]; [contradiction|]. cbn [pid].
  rewrite (bind_run _ _ _ _ _ (rd_run _ _ _ (rd_focus _ _ _ _ _ _ _ _ _ _ H))). cbn [npar cid fi].
  rewrite (bind_run _ _ _ _ _ (rd_run _ _ _ (rd_parent _ _ _ _ _ _ _ _ _ _ _ H))). unfold ret, cdir. destruct d; cbn [mkF nleft pid].
  - rewrite Nat.eqb_refl. reflexivity.
  - assert (N : ti <> pid x); [|apply Nat.eqb_neq in N; rewrite N; reflexivity]. intro E. cbn in Ht.
    pose proof (rc_nd _ _ _ _ _ H) as Nd. apply nd_app in Nd. destruct Nd as (_ & _ & Nd). apply (Nd ti).
    + rewrite ids_T. apply in_or_app. cbn. auto.
    + cbn [cids fs]. right. apply in_or_app. left. rewrite E. apply pid_in. congruence.
Qed.
Lemma sibling_run s d c i k v x ctx t a b : RC s (F d c i k v x :: ctx) t a b -> pid t <> 0 -> get_sibling K V (pid t) s = Some (pid x, s).
Proof.
  intros H Ht. unfold get_sibling. rewrite (bind_run _ _ _ _ _ (direction_run _ _ _ _ _ H Ht)). cbn [cdir].
  destruct t as [|tc l ti tk tv r]; [contradiction|]. cbn [pid]. rewrite (bind_run _ _ _ _ _ (rd_run _ _ _ (rd_focus _ _ _ _ _ _ _ _ _ _ H))). cbn [npar cid fi].
  rewrite (bind_run _ _ _ _ _ (rd_run _ _ _ (rd_parent _ _ _ _ _ _ _ _ _ _ _ H))). unfold ret. destruct d; reflexivity.
Qed.
Lemma has_sibling_run s d c i k v x ctx t a b : RC s (F d c i k v x :: ctx) t a b -> pid t <> 0 -> has_sibling K V (pid t) s = Some (negb (null (pid x)), s).
Proof.
  intros H Ht. unfold has_sibling. rewrite (bind_run _ _ _ _ _ (is_root_run _ _ _ _ _ H Ht)). rewrite (bind_run _ _ _ _ _ (sibling_run _ _ _ _ _ _ _ _ _ _ _ H Ht)). reflexivity.
Qed.

(** writes that only change one node: colour, value *)
Lemma ids_pos s ctx t a b q : RC s ctx t a b -> In q (ids t ++ cids ctx) -> q <> 0 /\ q <> 1.
Proof. intros H Hq. pose proof (rc_rng _ _ _ _ _ H q Hq). lia. Qed.
Lemma write_node s ctx c l i k v r a b c' v' f : RC s ctx (T c l i k v r) a b -> f (mkN c (cid ctx) (pid l) (pid r) k v) = mkN c' (cid ctx) (pid l) (pid r) k v' ->
  exists s', wr K V i f s = Some (tt, s') /\ RC s' ctx (T c' l i k v' r) a b /\ cnt _ _ s' = cnt _ _ s /\ next _ _ s' = next _ _ s.
Proof.
  intros H Ef. eexists. split; [apply wr_run; exact (rd_focus _ _ _ _ _ _ _ _ _ _ H)|]. rewrite Ef. split; [|split; reflexivity].
  assert (Hi : i <> 1) by (apply (ids_pos _ _ _ _ _ i H); apply in_or_app; left; rewrite ids_T; apply in_or_app; cbn; auto).
  destruct H as [H1 H2 H3 H4 H5 H6 H7 H8]. rewrite ids_T in H3. cbn in H2. destruct H2 as (A & B & C).
  rewrite <- app_assoc in H3. pose proof (nd_app _ _ H3) as (N1 & N2 & N3). cbn in N2, N3. inversion N2 as [|? ? N4 N5]; subst.
  constructor; cbn [heap root cnt next].
  - apply repc_put; [|exact H1]. intro X. apply N4. apply in_or_app. auto.
  - cbn. split; [apply put_eq|]. split; apply rep_put; try assumption.
    + intro X. apply (N3 i X). left. reflexivity.
    + intro X. apply N4. apply in_or_app. auto.
  - rewrite ids_T, <- app_assoc. exact H3.
  - intros j Hj. apply H4. rewrite ids_T in Hj |- *. exact Hj.
  - exact H5.
  - rewrite put_neq by congruence. exact H6.
  - intros q n Hq. rewrite ids_T. destruct (Nat.eq_dec q i) as [->|Nq]; [right; apply in_or_app; left; apply in_or_app; cbn; auto|].
    rewrite put_neq in Hq by exact Nq. apply H7 in Hq. rewrite ids_T in Hq. exact Hq.
  - exact H8.
Qed.
Lemma color_run s ctx c l i k v r a b c' : RC s ctx (T c l i k v r) a b ->
  exists s', wr K V i (w_col K V c') s = Some (tt, s') /\ RC s' ctx (T c' l i k v r) a b /\ cnt _ _ s' = cnt _ _ s /\ next _ _ s' = next _ _ s.
Proof. intro H. eapply write_node; [exact H|reflexivity]. Qed.
(** header->left / header->right *)
Lemma header_run s ctx t a b d (w : nat) : RC s ctx t a b -> exists s', wr K V 1 (w_child K V d w) s = Some (tt, s') /\ RC s' ctx t (pick d w a) (pick d b w) /\
  cnt _ _ s' = cnt _ _ s /\ next _ _ s' = next _ _ s.
Proof.
  intro H. eexists. split; [apply wr_run; exact (rc_hdr _ _ _ _ _ H)|]. split; [|split; reflexivity].
  assert (Hi : forall q, In q (ids t ++ cids ctx) -> q <> 1) by (intros q Hq; apply (ids_pos _ _ _ _ _ q H Hq)).
  destruct H as [H1 H2 H3 H4 H5 H6 H7 H8]. constructor; cbn [heap root cnt next]; try assumption.
  - apply repc_put; [|exact H1]. intro X. apply (Hi 1); [apply in_or_app; auto|reflexivity].
  - apply rep_put; [|exact H2]. intro X. apply (Hi 1); [apply in_or_app; auto|reflexivity].
  - rewrite put_eq. destruct d; reflexivity.
  - intros q n Hq. destruct (Nat.eq_dec q 1) as [->|Nq]; [auto|]. rewrite put_neq in Hq by exact Nq. eauto.
Qed.

Definition same_dom h h' : Prop := forall q n, h' q = Some n -> exists n', h q = Some n'.
Lemma same_dom_refl h : same_dom h h.
Proof. intros q n H. eauto. Qed.
Lemma same_dom_trans h1 h2 h3 : same_dom h1 h2 -> same_dom h2 h3 -> same_dom h1 h3.
Proof. intros A B q n H. destruct (B q n H) as (n' & H'). exact (A q n' H'). Qed.
Lemma same_dom_put h p n n' : h p = Some n -> same_dom h (put h p (Some n')).
Proof. intros H q m Hq. destruct (Nat.eq_dec q p) as [->|N]; [eauto|]. rewrite put_neq in Hq by exact N. eauto. Qed.
Definition keeps s s' : Prop := cnt _ _ s' = cnt _ _ s /\ next _ _ s' = next _ _ s.
Lemma keeps_refl s : keeps s s.
Proof. split; reflexivity. Qed.
Lemma keeps_trans s1 s2 s3 : keeps s1 s2 -> keeps s2 s3 -> keeps s1 s3.
Proof. intros [A B] [C D]. split; congruence. Qed.

Lemma rep_node h par d c x i k v y : rep h par (RbTree.node K V d c x i k v y) <-> h i = Some (mkF d c par (pid x) (pid y) k v) /\ rep h i x /\ rep h i y.
Proof. destruct d; cbn; tauto. Qed.
Lemma pid_node d c x i k v y : pid (RbTree.node K V d c x i k v y) = i.
Proof. destruct d; reflexivity. Qed.
Lemma ids_node d c x i k v y : Permutation (ids (RbTree.node K V d c x i k v y)) (i :: ids x ++ ids y).
Proof.
  destruct d; cbn [RbTree.node]; rewrite ids_T; rewrite <- Permutation_middle; apply perm_skip; [reflexivity|apply Permutation_app_comm].
Qed.
Lemma in_ids_node d c x i k v y q : In q (ids (RbTree.node K V d c x i k v y)) <-> q = i \/ In q (ids x) \/ In q (ids y).
Proof.
  split; intro H.
  - apply (Permutation_in _ (ids_node d c x i k v y)) in H. destruct H as [->|H]; [auto|]. apply in_app_or in H. tauto.
  - apply (Permutation_in _ (Permutation_sym (ids_node d c x i k v y))). destruct H as [->|[H|H]]; [left; reflexivity| |]; right; apply in_or_app; auto.
Qed.
(** the conditional write of maintainRelationship *)
Lemma reparent_run s t par w : rep (heap _ _ s) par t -> NoDup (ids t) -> (forall q, In q (ids t) -> q <> 0) ->
  exists s', (if null (pid t) then ret K V tt else wr K V (pid t) (w_par K V w)) s = Some (tt, s') /\ rep (heap _ _ s') w t /\
    (forall q, ~ In q (ids t) -> heap _ _ s' q = heap _ _ s q) /\ same_dom (heap _ _ s) (heap _ _ s') /\ root _ _ s' = root _ _ s /\ keeps s s'.
Proof.
  intros H Nd Nz. destruct t as [|c l i k v r].
  - exists s. cbn. split; [reflexivity|]. split; [exact I|]. split; [auto|]. split; [apply same_dom_refl|]. split; [reflexivity|apply keeps_refl].
  - cbn [pid]. assert (N0 : null i = false) by (apply Nat.eqb_neq; apply Nz; rewrite ids_T; apply in_or_app; cbn; auto). rewrite N0.
    cbn in H. destruct H as (A & B & C). eexists. split; [apply wr_run; exact A|]. cbn [heap root].
    rewrite ids_T in Nd. destruct (nd_app _ _ Nd) as (N1 & N2 & N3). inversion N2 as [|? ? N4 N5]; subst. split; [|split; [|split; [|split]]].
    + cbn. split; [apply put_eq|]. split; apply rep_put; try assumption. intro X. apply (N3 i X). left. reflexivity.
    + intros q Hq. apply put_neq. intros ->. apply Hq. rewrite ids_T. apply in_or_app. cbn. auto.
    + eapply same_dom_put. exact A.
    + reflexivity.
    + split; reflexivity.
Qed.
Lemma maintain_run s p d c par x y k v p0 p1 : heap _ _ s p = Some (mkF d c par (pid x) (pid y) k v) -> rep (heap _ _ s) p0 x -> rep (heap _ _ s) p1 y ->
  NoDup (p :: ids x ++ ids y) -> (forall q, In q (ids x ++ ids y) -> q <> 0) ->
  exists s', maintain_relationship K V p s = Some (tt, s') /\ heap _ _ s' p = Some (mkF d c par (pid x) (pid y) k v) /\ rep (heap _ _ s') p x /\ rep (heap _ _ s') p y /\
    (forall q, ~ In q (ids x) -> ~ In q (ids y) -> heap _ _ s' q = heap _ _ s q) /\ same_dom (heap _ _ s) (heap _ _ s') /\ root _ _ s' = root _ _ s /\ keeps s s'.
Proof.
  intros Hp Hx Hy Nd Nz. inversion Nd as [|? ? Np Nd']; subst. destruct (nd_app _ _ Nd') as (Nx & Ny & Nxy).
  assert (Npx : ~ In p (ids x)) by (intro X; apply Np, in_or_app; auto). assert (Npy : ~ In p (ids y)) by (intro X; apply Np, in_or_app; auto).
  assert (Zx : forall q, In q (ids x) -> q <> 0) by (intros q Hq; apply Nz, in_or_app; auto).
  assert (Zy : forall q, In q (ids y) -> q <> 0) by (intros q Hq; apply Nz, in_or_app; auto).
  unfold maintain_relationship. rewrite (bind_run _ _ _ _ _ (rd_run _ _ _ Hp)). destruct d; cbn [mkF nleft nright].
  - destruct (reparent_run s x p0 p Hx Nx Zx) as (s1 & R1 & X1 & E1 & D1 & T1 & K1). rewrite (bind_run _ _ _ _ _ R1).
    assert (Hp1 : heap _ _ s1 p = Some (mkN c par (pid x) (pid y) k v)) by (rewrite E1 by exact Npx; exact Hp).
    rewrite (bind_run _ _ _ _ _ (rd_run _ _ _ Hp1)). cbn [nright].
    assert (Hy1 : rep (heap _ _ s1) p1 y) by (apply (rep_ext (heap _ _ s)); [intros q Hq; apply E1; intro X; exact (Nxy q X Hq)|exact Hy]).
    destruct (reparent_run s1 y p1 p Hy1 Ny Zy) as (s2 & R2 & Y2 & E2 & D2 & T2 & K2). exists s2. split; [exact R2|].
    split; [rewrite E2 by exact Npy; exact Hp1|]. split; [|split; [exact Y2|split; [|split; [|split]]]].
    + apply (rep_ext (heap _ _ s1)); [|exact X1]. intros q Hq. apply E2. intro X. exact (Nxy q Hq X).
    + intros q Q1 Q2. rewrite E2, E1 by assumption. reflexivity.
    + eapply same_dom_trans; eassumption.
    + congruence.
    + eapply keeps_trans; eassumption.
  - destruct (reparent_run s y p1 p Hy Ny Zy) as (s1 & R1 & Y1 & E1 & D1 & T1 & K1). rewrite (bind_run _ _ _ _ _ R1).
    assert (Hp1 : heap _ _ s1 p = Some (mkN c par (pid y) (pid x) k v)) by (rewrite E1 by exact Npy; exact Hp).
    rewrite (bind_run _ _ _ _ _ (rd_run _ _ _ Hp1)). cbn [nright].
    assert (Hx1 : rep (heap _ _ s1) p0 x) by (apply (rep_ext (heap _ _ s)); [intros q Hq; apply E1; intro X; exact (Nxy q Hq X)|exact Hx]).
    destruct (reparent_run s1 x p0 p Hx1 Nx Zx) as (s2 & R2 & X2 & E2 & D2 & T2 & K2). exists s2. split; [exact R2|].
    split; [rewrite E2 by exact Npx; exact Hp1|]. split; [exact X2|]. split; [|split; [|split; [|split]]].
    + apply (rep_ext (heap _ _ s1)); [|exact Y1]. intros q Hq. apply E2. intro X. exact (Nxy q X Hq).
    + intros q Q1 Q2. rewrite E2, E1 by assumption. reflexivity.
    + eapply same_dom_trans; eassumption.
    + congruence.
    + eapply keeps_trans; eassumption.
Qed.
(** replacing the subtree at the hole *)
Definition relink (dd : dir) (parent w : nat) : M K V unit :=
  match dd with DRoot => bind K V (set_root K V w) (fun _ => wr K V hdr (w_par K V w)) | DSide e => wr K V parent (w_child K V e w) end.
Lemma relink_run s ctx p w a b : repc (heap _ _ s) ctx p -> NoDup (cids ctx) -> ~ In 1 (cids ctx) -> root _ _ s = rid ctx p ->
  heap _ _ s 1 = Some (mkN Red (rid ctx p) a b dk dv) ->
  exists s', relink (cdir ctx) (cid ctx) w s = Some (tt, s') /\ repc (heap _ _ s') ctx w /\ root _ _ s' = rid ctx w /\
    heap _ _ s' 1 = Some (mkN Red (rid ctx w) a b dk dv) /\ (forall q, q <> 1 -> ~ In q (cids ctx) -> heap _ _ s' q = heap _ _ s q) /\
    same_dom (heap _ _ s) (heap _ _ s') /\ keeps s s'.
Proof.
  intros Hc Nd N1 Hr Hh. destruct ctx as [|[d c i k v x] ctx]; cbn [cdir cid relink fi].
  - unfold set_root, bind, hdr. rewrite (wr_run 1 _ _ (mkN Red (rid [] p) a b dk dv)) by exact Hh. eexists. split; [reflexivity|]. cbn [heap root repc rid].
    split; [exact I|]. split; [reflexivity|]. split; [apply put_eq|]. split; [intros q Q1 _; apply put_neq; exact Q1|]. split; [eapply same_dom_put; exact Hh|split; reflexivity].
  - cbn in Hc. destruct Hc as (A & B & C). cbn [cids fi fs] in Nd, N1. inversion Nd as [|? ? Ni Nd']; subst.
    eexists. split; [apply wr_run; exact A|]. cbn [heap root]. split; [|split; [|split; [|split; [|split]]]].
    + cbn. split; [rewrite put_eq; destruct d; reflexivity|]. split; [apply rep_put; [|exact B]|apply repc_put; [|exact C]]; intro X; apply Ni, in_or_app; auto.
    + exact Hr.
    + rewrite put_neq; [exact Hh|]. intro X. apply N1. left. congruence.
    + intros q _ Q. apply put_neq. intros ->. apply Q. left. reflexivity.
    + eapply same_dom_put. exact A.
    + split; reflexivity.
Qed.
Lemma nchild_d d c par p q k v : nchild K V d (mkF d c par p q k v) = p.
Proof. destruct d; reflexivity. Qed.
Lemma nchild_o d c par p q k v : nchild K V (opp d) (mkF d c par p q k v) = q.
Proof. destruct d; reflexivity. Qed.
Lemma wchild_d d c par p q k v w : w_child K V d w (mkF d c par p q k v) = mkF d c par w q k v.
Proof. destruct d; reflexivity. Qed.
Lemma wchild_o d c par p q k v w : w_child K V (opp d) w (mkF d c par p q k v) = mkF d c par p w k v.
Proof. destruct d; reflexivity. Qed.
Lemma wpar_F d c par p q k v w : w_par K V w (mkF d c par p q k v) = mkF d c w p q k v.
Proof. destruct d; reflexivity. Qed.
Lemma npar_F d c par p q k v : npar K V (mkF d c par p q k v) = par.
Proof. destruct d; reflexivity. Qed.

Ltac nin := let X := fresh in intro X; repeat match goal with H : ~ In _ _ |- _ => revert H end; repeat match goal with H : _ <> _ |- _ => revert H end;
  revert X; rewrite ?in_app_iff; cbn [In]; rewrite ?in_app_iff; intuition congruence.

Lemma rotate_run s ctx d c x n k v c2 y si k2 v2 z a b :
  RC s ctx (RbTree.node K V d c x n k v (RbTree.node K V d c2 y si k2 v2 z)) a b ->
  exists s', rotate K V d n s = Some (tt, s') /\ RC s' ctx (RbTree.node K V d c2 (RbTree.node K V d c x n k v y) si k2 v2 z) a b /\ keeps s s'.
Proof.
  intro H.
  assert (P : Permutation (ids (RbTree.node K V d c x n k v (RbTree.node K V d c2 y si k2 v2 z)) ++ cids ctx) (n :: si :: ids x ++ ids y ++ ids z ++ cids ctx)).
  { rewrite ids_node, ids_node. cbn [app]. apply perm_skip. rewrite <- app_assoc. cbn [app].
    rewrite <- (Permutation_middle (ids x)). rewrite <- !app_assoc. reflexivity. }
  assert (P' : Permutation (ids (RbTree.node K V d c2 (RbTree.node K V d c x n k v y) si k2 v2 z) ++ cids ctx) (n :: si :: ids x ++ ids y ++ ids z ++ cids ctx)).
  { rewrite ids_node, ids_node. cbn [app]. rewrite <- !app_assoc. apply perm_swap. }
  pose proof (direction_run s ctx _ a b H) as Dir. rewrite pid_node in Dir.
  pose proof (fun q => ids_pos s ctx _ a b q H) as Pos.
  assert (Pos' : forall q, In q (n :: si :: ids x ++ ids y ++ ids z ++ cids ctx) -> q <> 0 /\ q <> 1).
  { intros q Hq. apply Pos. apply (Permutation_in _ (Permutation_sym P)). exact Hq. }
  destruct H as [H1 H2 H3 H4 H5 H6 H7 H8]. rewrite pid_node in H1, H5, H6.
  apply (Permutation_NoDup P) in H3. inversion H3 as [|? ? Nn Nd1]; subst. inversion Nd1 as [|? ? Ns Nd2]; subst.
  destruct (nd_app _ _ Nd2) as (Nx & Nd3 & Dx). destruct (nd_app _ _ Nd3) as (Ny & Nd4 & Dy). destruct (nd_app _ _ Nd4) as (Nz & Nc & Dz).
  assert (Nns : n <> si) by (intros ->; apply Nn; left; reflexivity).
  apply rep_node in H2. destruct H2 as (An & Rx & H2). apply rep_node in H2. destruct H2 as (As & Ry & Rz). rewrite pid_node in An.
  destruct (Pos' n) as [Zn On]; [cbn; auto|]. destruct (Pos' si) as [Zs Os]; [cbn; auto|]. specialize (Dir Zn).
  assert (Mx : forall q, In q (ids x) -> In q (n :: si :: ids x ++ ids y ++ ids z ++ cids ctx)) by (intros q Hq; cbn; rewrite !in_app_iff; auto).
  assert (My : forall q, In q (ids y) -> In q (n :: si :: ids x ++ ids y ++ ids z ++ cids ctx)) by (intros q Hq; cbn; rewrite !in_app_iff; auto).
  assert (Mz : forall q, In q (ids z) -> In q (n :: si :: ids x ++ ids y ++ ids z ++ cids ctx)) by (intros q Hq; cbn; rewrite !in_app_iff; auto 6).
  assert (Mc : forall q, In q (cids ctx) -> In q (n :: si :: ids x ++ ids y ++ ids z ++ cids ctx)) by (intros q Hq; cbn; rewrite !in_app_iff; auto 6).
  assert (Qn : ~ In n (ids x) /\ ~ In n (ids y) /\ ~ In n (ids z) /\ ~ In n (cids ctx)).
  { cbn in Nn. rewrite !in_app_iff in Nn. tauto. }
  assert (Qs : ~ In si (ids x) /\ ~ In si (ids y) /\ ~ In si (ids z) /\ ~ In si (cids ctx)).
  { rewrite !in_app_iff in Ns. tauto. }
  destruct Qn as (Qn1 & Qn2 & Qn3 & Qn4). destruct Qs as (Qs1 & Qs2 & Qs3 & Qs4).
  assert (O1 : ~ In 1 (ids x) /\ ~ In 1 (ids y) /\ ~ In 1 (ids z) /\ ~ In 1 (cids ctx)).
  { repeat split; intro X; [apply Mx in X|apply My in X|apply Mz in X|apply Mc in X]; destruct (Pos' _ X); congruence. }
  destruct O1 as (O1x & O1y & O1z & O1c).
  unfold rotate. rewrite (bind_run _ _ _ _ _ (rd_run _ _ _ An)). rewrite nchild_o, npar_F.
  assert (Z0 : null si = false) by (apply Nat.eqb_neq; exact Zs). unfold check. rewrite Z0. cbn [negb]. rewrite (bind_run (ret K V tt) _ s tt s eq_refl).
  rewrite (bind_run _ _ _ _ _ Dir). rewrite (bind_run _ _ _ _ _ (rd_run _ _ _ As)). rewrite nchild_d.
  (* the two writes *)
  rewrite (bind_run _ _ _ _ _ (wr_run _ _ _ _ An)). rewrite wchild_o. set (s1 := mkS _ _ _ _ _ _).
  assert (As1 : heap _ _ s1 si = Some (mkF d c2 n (pid y) (pid z) k2 v2)) by (unfold s1; cbn [heap]; rewrite put_neq by congruence; exact As).
  rewrite (bind_run _ _ _ _ _ (wr_run _ _ _ _ As1)). rewrite wchild_d. set (s2 := mkS _ _ _ _ _ _).
  assert (E2 : forall q, q <> n -> q <> si -> heap _ _ s2 q = heap _ _ s q) by (intros q Q1 Q2; unfold s2, s1; cbn [heap]; rewrite !put_neq by assumption; reflexivity).
  assert (D2 : same_dom (heap _ _ s) (heap _ _ s2)).
  { apply (same_dom_trans _ (heap _ _ s1)); [eapply same_dom_put; exact An|eapply same_dom_put; exact As1]. }
  assert (An2 : heap _ _ s2 n = Some (mkF d c (cid ctx) (pid x) (pid y) k v)) by (unfold s2, s1; cbn [heap]; rewrite put_neq by exact Nns; apply put_eq).
  assert (As2 : heap _ _ s2 si = Some (mkF d c2 n n (pid z) k2 v2)) by apply put_eq.
  assert (Rx2 : rep (heap _ _ s2) n x) by (apply (rep_ext (heap _ _ s)); [intros q Hq; apply E2; congruence|exact Rx]).
  assert (Ry2 : rep (heap _ _ s2) si y) by (apply (rep_ext (heap _ _ s)); [intros q Hq; apply E2; congruence|exact Ry]).
  (* maintainRelationship(node) *)
  destruct (maintain_run s2 n d c (cid ctx) x y k v n si An2 Rx2 Ry2) as (s3 & R3 & An3 & Rx3 & Ry3 & E3 & D3 & T3 & K3).
  { constructor; [rewrite in_app_iff; tauto|]. rewrite app_assoc in Nd2. destruct (nd_app _ _ Nd2) as (N & _). exact N. }
  { intros q Hq. apply in_app_or in Hq. destruct Hq as [Hq|Hq]; apply Pos'; auto. }
  rewrite (bind_run _ _ _ _ _ R3).
  assert (As3 : heap _ _ s3 si = Some (mkF d c2 n n (pid z) k2 v2)) by (rewrite E3 by assumption; exact As2).
  assert (Rn3 : rep (heap _ _ s3) (cid ctx) (RbTree.node K V d c x n k v y)) by (apply rep_node; auto).
  assert (Rz3 : rep (heap _ _ s3) si z).
  { apply (rep_ext (heap _ _ s)); [|exact Rz]. intros q Hq. rewrite E3, E2; [reflexivity|congruence|congruence| |].
    - intro X. apply (Dx q X). rewrite !in_app_iff. auto.
    - intro X. apply (Dy q X). rewrite in_app_iff. auto. }
  (* maintainRelationship(successor) *)
  destruct (maintain_run s3 si d c2 n (RbTree.node K V d c x n k v y) z k2 v2 (cid ctx) si) as (s4 & R4 & As4 & Rn4 & Rz4 & E4 & D4 & T4 & K4).
  { rewrite pid_node. exact As3. } { exact Rn3. } { exact Rz3. }
  { eapply Permutation_NoDup; [apply perm_skip, Permutation_app_tail, Permutation_sym, ids_node|]. cbn [app].
    pose proof H3 as H3'. replace (n :: si :: ids x ++ ids y ++ ids z ++ cids ctx) with (([n; si] ++ ids x ++ ids y ++ ids z) ++ cids ctx) in H3' by (cbn; rewrite <- !app_assoc; reflexivity).
    destruct (nd_app _ _ H3') as (N & _). eapply Permutation_NoDup; [|exact N]. cbn [app]. rewrite <- !app_assoc. apply perm_swap. }
  { intros q Hq. apply Pos'. apply in_app_or in Hq. rewrite in_ids_node in Hq. destruct Hq as [[->|[Hq|Hq]]|Hq]; auto. left. reflexivity. }
  rewrite (bind_run _ _ _ _ _ R4). rewrite pid_node in As4.
  (* link from above *)
  assert (E14 : heap _ _ s4 1 = heap _ _ s 1).
  { rewrite E4, E3, E2; try congruence; try assumption. rewrite in_ids_node. intuition congruence. }
  assert (Ec4 : forall q, In q (cids ctx) -> heap _ _ s4 q = heap _ _ s q).
  { intros q Hq. assert (A1 : ~ In q (ids x)) by (intro X; apply (Dx q X); rewrite !in_app_iff; auto).
    assert (A2 : ~ In q (ids y)) by (intro X; apply (Dy q X); rewrite in_app_iff; auto). assert (A3 : ~ In q (ids z)) by (intro X; exact (Dz q X Hq)).
    rewrite E4, E3, E2; try assumption; try congruence. rewrite in_ids_node. intuition congruence. }
  destruct (relink_run s4 ctx n si a b) as (s5 & R5 & C5 & T5 & Hh5 & E5 & D5 & K5).
  { apply (repc_ext (heap _ _ s)); [exact Ec4|exact H1]. } { exact Nc. } { exact O1c. } { rewrite T4, T3. exact H5. } { rewrite E14. exact H6. }
  change (match cdir ctx with DRoot => bind K V (set_root K V si) (fun _ => wr K V hdr (w_par K V si)) | DSide e => wr K V (cid ctx) (w_child K V e si) end) with (relink (cdir ctx) (cid ctx) si).
  rewrite (bind_run _ _ _ _ _ R5).
  assert (As5 : heap _ _ s5 si = Some (mkF d c2 n n (pid z) k2 v2)) by (rewrite E5 by assumption; exact As4).
  eexists. split; [apply wr_run; exact As5|]. rewrite wpar_F. split; [|eapply keeps_trans; [|eapply keeps_trans; [exact K3|eapply keeps_trans; [exact K4|exact K5]]]; split; reflexivity].
  constructor; cbn [heap root next].
  - rewrite pid_node. apply repc_put; [exact Qs4|exact C5].
  - apply rep_node. rewrite pid_node. split; [apply put_eq|]. split.
    + apply rep_put; [rewrite in_ids_node; intuition congruence|]. apply (rep_ext (heap _ _ s4)); [|exact Rn4]. intros q Hq. apply E5.
      * rewrite in_ids_node in Hq. intros ->. destruct Hq as [|[|]]; [congruence|contradiction|contradiction].
      * rewrite in_ids_node in Hq. intro X. destruct Hq as [->|[Hq|Hq]]; [contradiction| |].
        -- apply (Dx q Hq). rewrite !in_app_iff. auto.
        -- apply (Dy q Hq). rewrite in_app_iff. auto.
    + apply rep_put; [exact Qs3|]. apply (rep_ext (heap _ _ s4)); [|exact Rz4]. intros q Hq. apply E5; [congruence|]. exact (Dz q Hq).
  - apply (Permutation_NoDup (Permutation_sym P')). exact H3.
  - intros q Hq. assert (Nx5 : next _ _ s5 = next _ _ s) by (destruct K3 as [_ ?], K4 as [_ ?], K5 as [_ ?]; cbn in *; congruence). rewrite Nx5.
    apply H4. apply (Permutation_in _ (Permutation_sym P)). apply (Permutation_in _ P'). exact Hq.
  - rewrite pid_node. exact T5.
  - rewrite pid_node. rewrite put_neq by congruence. exact Hh5.
  - intros q nn Hq. assert (DD : same_dom (heap _ _ s) (put (heap _ _ s5) si (Some (mkF d c2 (cid ctx) n (pid z) k2 v2)))).
    { apply (same_dom_trans _ _ _ D2). apply (same_dom_trans _ _ _ D3). apply (same_dom_trans _ _ _ D4). apply (same_dom_trans _ _ _ D5). eapply same_dom_put. exact As5. }
    destruct (DD q nn Hq) as (n' & Hn'). destruct (H7 q n' Hn') as [|Hi]; [auto|]. right. apply (Permutation_in _ (Permutation_sym P')). apply (Permutation_in _ P). exact Hi.
  - destruct K3 as [_ K3], K4 as [_ K4], K5 as [_ K5]. cbn in K3. lia.
Qed.
End H.
Arguments bind_run {K V A B m f s w s'} _.
Arguments rd_run {K V p s n} _.
Arguments wr_run {K V p f s n} _.
Arguments rd_focus {K V dk dv s ctx c l i k v r a b} _.
Arguments rd_parent {K V dk dv s d c i k v x ctx t a b} _.
Arguments is_root_run {K V dk dv s ctx t a b} _ _.
Arguments direction_run {K V dk dv s ctx t a b} _ _.
Arguments sibling_run {K V dk dv s d c i k v x ctx t a b} _ _.
Arguments has_sibling_run {K V dk dv s d c i k v x ctx t a b} _ _.
Arguments color_run {K V dk dv s ctx c l i k v r a b} c' _.
Arguments write_node {K V dk dv s ctx c l i k v r a b c' v' f} _ _.
Arguments header_run {K V dk dv s ctx t a b} d w _.
Arguments rotate_run {K V dk dv s ctx d c x n k v c2 y si k2 v2 z a b} _.
Arguments RC_up {K V dk dv s f ctx t a b} _.
Arguments ids_pos {K V dk dv s ctx t a b q} _ _.
Arguments RC_all {K V dk dv s ctx t a b} _.
