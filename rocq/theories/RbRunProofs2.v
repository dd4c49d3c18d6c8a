(** count, key order in the heap, cost of a search. *)
From Verif Require Import Prelude RbModel RbSpec RbTree RbHeap RbHeap2 RbHeap3 RbHeap4 RbHeap5 RbHeap6 RbOps RbOps2 RbOps3 RbIter RbRun RbRunProofs.

Section H.
Variables (K V : Type) (eqb ltb : K -> K -> bool) (dk : K) (dv : V).
Hypothesis ord : total_order K eqb ltb.
Notation Inv := (Inv K V ltb dk dv).
Notation look := (look K V eqb).
Notation elems := (elems K V).
Notation srt := (srt K V ltb).
Notation RBH s := (rbh (RbModel.node K V) (heap K V s) (red K V) (npar K V) (nleft K V) (nright K V)).
Notation DESC s := (desc (RbModel.node K V) (heap K V s) (nleft K V) (nright K V)).
Lemma count_empty {s} k : Inv s E -> count K V eqb ltb k s = None.
Proof.
  intro H. unfold count. rewrite (bind_run (eq_refl : get_root K V s = Some (root K V s, s))). rewrite (Inv_root K V ltb dk dv H). rewrite (bind_run (eq_refl : get_fuel K V s = Some (next K V s, s))).
  pose proof (rc_next _ _ _ _ _ _ _ _ _ (iv_rc _ _ _ _ _ _ _ H)) as Le. destruct (next K V s) as [|f] eqn:En; [lia|]. cbn [get_node RbHeap.pid].
  assert (Z : heap K V s 0 = None). { destruct (heap K V s 0) as [n|] eqn:Eh; [|reflexivity]. destruct (rc_dom _ _ _ _ _ _ _ _ _ (iv_rc _ _ _ _ _ _ _ H) 0 n Eh) as [|[]]. discriminate. }
  unfold bind, rd. rewrite Z. reflexivity.
Qed.
Lemma count_inv {s t} k : Inv s t -> t <> E -> count K V eqb ltb k s = Some (match look (elems t) k with Some _ => 1 | None => 0 end, s).
Proof.
  intros H Ht. pose proof (get_inv K V eqb ltb dk dv ord k H) as G. unfold get in G. unfold count. rewrite (bind_run (eq_refl : get_root K V s = Some (root K V s, s))) in G. rewrite (bind_run (eq_refl : get_root K V s = Some (root K V s, s))).
  rewrite (Inv_root K V ltb dk dv H) in G |- *. assert (Nz : null (pid K V t) = false) by (rewrite (Inv_null K V ltb dk dv H); destruct t; [contradiction|reflexivity]). rewrite Nz in G. rewrite (bind_run (eq_refl : get_fuel K V s = Some (next K V s, s))) in G. rewrite (bind_run (eq_refl : get_fuel K V s = Some (next K V s, s))).
  unfold bind in G |- *. destruct (get_node K V eqb ltb (next K V s) (pid K V t) k s) as [[x s1]|]; [|discriminate]. destruct (null x); [unfold ret in G |- *; destruct (look (elems t) k); congruence|].
  destruct (rd K V x s1) as [[n s2]|] eqn:Er; [|discriminate]. unfold ret in G |- *. unfold rd in Er. destruct (heap K V s1 x); [|discriminate]. injection Er as _ ->. destruct (look (elems t) k); congruence.
Qed.
(** keys below a node *)
Lemma desc_in s : forall t par, rep K V (heap K V s) par t -> forall m q n, DESC s (pid K V t) m q -> q <> 0 -> heap K V s q = Some n -> In (q, (nkey K V n, nval K V n)) (elems t).
Proof.
  induction t as [|c l IHl i k v r IHr]; intros par Hr m q n D Hq Hn; cbn [RbHeap.pid] in D.
  - inversion D; subst; contradiction.
  - cbn [rep] in Hr. destruct Hr as (A & B & C). cbn [RbTree.elems]. apply in_or_app. inversion D as [|? ? ? ? Hp Hh D'|? ? ? ? Hp Hh D']; subst.
    + right. left. rewrite A in Hn. injection Hn as <-. reflexivity.
    + rewrite A in Hh. injection Hh as <-. cbn [nleft] in D'. left. eapply IHl; eassumption.
    + rewrite A in Hh. injection Hh as <-. cbn [nright] in D'. right. right. eapply IHr; eassumption.
Qed.
Lemma order_ok s : forall t par, rep K V (heap K V s) par t -> srt (elems t) -> forall m p n, DESC s (pid K V t) m p -> p <> 0 -> heap K V s p = Some n ->
  (forall j q nq, DESC s (nleft K V n) j q -> q <> 0 -> heap K V s q = Some nq -> ltb (nkey K V nq) (nkey K V n) = true) /\
  (forall j q nq, DESC s (nright K V n) j q -> q <> 0 -> heap K V s q = Some nq -> ltb (nkey K V n) (nkey K V nq) = true).
Proof.
  induction t as [|c l IHl i k v r IHr]; intros par Hr Hs m p n D Hp Hn; cbn [RbHeap.pid] in D.
  - inversion D; subst; contradiction.
  - cbn [rep] in Hr. destruct Hr as (A & B & C). cbn [RbTree.elems] in Hs. apply (srt_app K V ltb) in Hs. destruct Hs as (Sl & Sr & Hc). cbn [RbOps3.srt] in Sr. destruct Sr as [S1 Sr].
    inversion D as [|? ? ? ? Hp' Hh D'|? ? ? ? Hp' Hh D']; subst.
    + rewrite A in Hn. injection Hn as <-. cbn [nleft nright nkey]. split; intros j q nq Dq Hq Hnq.
      * pose proof (desc_in s l _ B j q nq Dq Hq Hnq) as X. exact (Hc _ (_, (k, v)) X (or_introl eq_refl)).
      * pose proof (desc_in s r _ C j q nq Dq Hq Hnq) as X. exact (S1 _ X).
    + rewrite A in Hh. injection Hh as <-. cbn [nleft] in D'. eapply IHl; eassumption.
    + rewrite A in Hh. injection Hh as <-. cbn [nright] in D'. eapply IHr; eassumption.
Qed.
(** a search reads at most 2b nodes *)
Lemma search_cost s k : forall par p c b, RBH s par p c b -> p <> 0 -> forall f, 2 * b + (if c then 1 else 0) <= f -> exists x, get_node K V eqb ltb f p k s = Some (x, s).
Proof.
  intros par p c b H. induction H as [par|par p n b Hp Hn _ Hc Hl IHl Hr IHr|par p n b c1 c2 Hp Hn _ Hc Hl IHl Hr IHr]; intros Hz f Hf; [contradiction| |]; (destruct f as [|f]; [lia|]); cbn [get_node]; rewrite (bind_run (rd_run Hn));
    (destruct (eqb k (nkey K V n)); [eexists; reflexivity|]); destruct (ltb k (nkey K V n)); cbn [nchild].
  - destruct (null (nleft K V n)) eqn:E0; [eexists; reflexivity|]. apply Nat.eqb_neq in E0. apply IHl; [exact E0|lia].
  - destruct (null (nright K V n)) eqn:E0; [eexists; reflexivity|]. apply Nat.eqb_neq in E0. apply IHr; [exact E0|lia].
  - destruct (null (nleft K V n)) eqn:E0; [eexists; reflexivity|]. apply Nat.eqb_neq in E0. apply IHl; [exact E0|destruct c1; lia].
  - destruct (null (nright K V n)) eqn:E0; [eexists; reflexivity|]. apply Nat.eqb_neq in E0. apply IHr; [exact E0|destruct c2; lia].
Qed.
Lemma log_bound b n : 2 ^ b <= S n -> 2 * b <= 2 * Nat.log2 (n + 1).
Proof. intro H. assert (b <= Nat.log2 (n + 1)); [|lia]. apply Nat.log2_le_pow2; lia. Qed.

(** walks of one state *)
Lemma walks_ok {s t} : Inv s t -> let l := map snd (elems t) in
  exec K V eqb ltb dv Iterate s = Some (OList l, s) /\ exec K V eqb ltb dv ForEach s = Some (OList l, s) /\ exec K V eqb ltb dv ReverseBack s = Some (OList l, s) /\
  exec K V eqb ltb dv IterateReverse s = Some (OList (rev l), s) /\ exec K V eqb ltb dv IterateBack s = Some (OList (rev l), s) /\
  (forall k, exec K V eqb ltb dv (LowerBound k) s = Some (OList (filter (fun e => negb (ltb (fst e) k)) l), s)) /\
  (forall k, exec K V eqb ltb dv (UpperBound k) s = Some (OList (filter (fun e => ltb k (fst e)) l), s)).
Proof.
  intro H. pose proof (iv_srt _ _ _ _ _ _ _ H) as Hs. pose proof (Inv_len K V ltb dk dv H) as Le. cbn [exec]. split; [rewrite (bind_run (iterate_run K V ltb dk dv H)); reflexivity|].
  split; [rewrite (bind_run (for_each_run K V ltb dk dv H)); reflexivity|]. split; [|split; [rewrite (bind_run (iterate_reverse_run K V ltb dk dv H)); reflexivity|split; [|split; intro k]]].
  - rewrite (bind_run (rbegin_run K V ltb dk dv H)). rewrite (bind_run (eq_refl : get_fuel K V s = Some (next K V s, s))).
    assert (X : back K V (next K V s) L L (lid K V (elems t)) hdr s = Some (map snd (elems t), s)).
    { destruct (elems t) as [|e0 l0] eqn:Ee; [destruct (next K V s) as [|f]; [lia|reflexivity]|]. rewrite <- Ee in *. apply (back_L K V ltb dk dv H ltac:(rewrite Ee; discriminate) (elems t) []); [reflexivity|unfold entry in *; lia]. }
    rewrite (bind_run X). reflexivity.
  - rewrite (bind_run (begin_run K V ltb dk dv H)). rewrite (bind_run (eq_refl : get_fuel K V s = Some (next K V s, s))).
    assert (X : back K V (next K V s) R R (fid K V (elems t)) hdr s = Some (rev (map snd (elems t)), s)).
    { destruct (elems t) as [|e0 l0] eqn:Ee; [destruct (next K V s) as [|f]; [lia|reflexivity]|]. rewrite <- Ee in *. apply (back_R K V ltb dk dv H ltac:(rewrite Ee; discriminate) (elems t) []); [rewrite app_nil_r; reflexivity|unfold entry in *; lia]. }
    rewrite (bind_run X). reflexivity.
  - unfold lower_bound. rewrite (bind_run (bound_run K V eqb ltb dk dv ord true k H)). destruct (filter_suffix K V eqb ltb ord true k (elems t) Hs) as (p & Ep). rewrite (rest_run K V ltb dk dv p _ H Ep). rewrite <- (filter_map_snd K V (fun e => negb (ltb (fst e) k))). reflexivity.
  - unfold upper_bound. rewrite (bind_run (bound_run K V eqb ltb dk dv ord false k H)). destruct (filter_suffix K V eqb ltb ord false k (elems t) Hs) as (p & Ep). rewrite (rest_run K V ltb dk dv p _ H Ep). rewrite <- (filter_map_snd K V (fun e => ltb k (fst e))). reflexivity.
Qed.
Lemma crend_ends {s t} : Inv s t -> forall k1 v1 k2 v2 q, map snd (elems t) = (k1, v1) :: q ++ [(k2, v2)] ->
  exists p1 n1 p2 n2, decrement K V L L hdr s = Some (p1, s) /\ heap K V s p1 = Some n1 /\ nkey K V n1 = k1 /\
    decrement K V R L hdr s = Some (p2, s) /\ heap K V s p2 = Some n2 /\ nkey K V n2 = k2 /\ k1 <> k2.
Proof.
  intros H k1 v1 k2 v2 q E0. assert (Ht : t <> E) by (intros ->; discriminate). rewrite (decrement_end K V ltb dk dv L L H Ht), (decrement_end K V ltb dk dv R L H Ht).
  destruct (elems t) as [|[i [k v]] l] eqn:El; [discriminate|]. cbn [map snd] in E0. injection E0 as -> -> E0. destruct l as [|[j [k' v']] l] using rev_ind; [destruct q; discriminate|]. clear IHl.
  rewrite map_app in E0. cbn [map snd] in E0. apply app_inj_tail in E0. destruct E0 as [E0 Ek]. injection Ek as -> ->.
  destruct (rd_entry K V ltb dk dv [] i k1 v1 _ H El) as (n1 & A1 & B1 & _). assert (El' : elems t = ((i, (k1, v1)) :: l) ++ (j, (k2, v2)) :: []) by exact El. destruct (rd_entry K V ltb dk dv _ j k2 v2 [] H El') as (n2 & A2 & B2 & _).
  exists i, n1, j, n2. split; [reflexivity|]. split; [exact A1|]. split; [exact B1|]. split; [rewrite app_comm_cons, lid_snoc; reflexivity|]. split; [exact A2|]. split; [exact B2|].
  intros ->. pose proof (iv_srt _ _ _ _ _ _ _ H) as Hs. rewrite El in Hs. destruct Hs as [Hs _]. specialize (Hs (j, (k2, v2)) ltac:(apply in_or_app; right; left; reflexivity)). unfold lte, ekey in Hs. cbn in Hs. rewrite (to_irr _ _ _ ord) in Hs. discriminate.
Qed.
(** a map has one sorted listing *)
Lemma sorted_lt (l : list (K * V)) : (forall p k1 v1 k2 v2 q, l = p ++ (k1, v1) :: (k2, v2) :: q -> ltb k1 k2 = true) -> forall e l' f, l = e :: l' -> In f l' -> ltb (fst e) (fst f) = true.
Proof.
  induction l as [|a l IH]; intros Hs e l' f E0 Hf; [discriminate|]. injection E0 as -> <-. destruct l as [|b l]; [destruct Hf|]. assert (X : ltb (fst e) (fst b) = true) by (destruct e, b; exact (Hs [] _ _ _ _ l eq_refl)).
  destruct Hf as [->|Hf]; [exact X|]. apply (to_trans _ _ _ ord _ (fst b)); [exact X|]. refine (IH _ b l f eq_refl Hf). intros p k1 v1 k2 v2 q E1. apply (Hs (e :: p) k1 v1 k2 v2 q). rewrite E1. reflexivity.
Qed.
Lemma lists_unique m : forall l l', lists K V ltb m l -> lists K V ltb m l' -> l = l'.
Proof.
  intros l l' [A1 A2] [B1 B2]. assert (X : forall e, In e l <-> In e l') by (intros [k v]; rewrite A1, B1; reflexivity). clear A1 B1. revert l' X B2. induction l as [|a l IH]; intros l' X B2.
  - destruct l' as [|b l']; [reflexivity|]. destruct (proj2 (X b) (or_introl eq_refl)).
  - destruct l' as [|b l']; [destruct (proj1 (X a) (or_introl eq_refl))|].
    pose proof (sorted_lt _ A2 a l) as La. pose proof (sorted_lt _ B2 b l') as Lb. assert (Na : ~ In a l) by (intro Y; specialize (La a eq_refl Y); rewrite (to_irr _ _ _ ord) in La; discriminate).
    assert (Nb : ~ In b l') by (intro Y; specialize (Lb b eq_refl Y); rewrite (to_irr _ _ _ ord) in Lb; discriminate).
    assert (Eab : a = b).
    { destruct (proj1 (X a) (or_introl eq_refl)) as [->|Y]; [reflexivity|]. destruct (proj2 (X b) (or_introl eq_refl)) as [->|Z]; [reflexivity|]. exfalso. pose proof (to_trans _ _ _ ord _ _ _ (La b eq_refl Z) (Lb a eq_refl Y)) as W. rewrite (to_irr _ _ _ ord) in W. discriminate. }
    subst b. f_equal. apply IH; [intros p k1 v1 k2 v2 q E1; apply (A2 (a :: p) k1 v1 k2 v2 q); rewrite E1; reflexivity| |intros p k1 v1 k2 v2 q E1; apply (B2 (a :: p) k1 v1 k2 v2 q); rewrite E1; reflexivity].
    intro e. split; intro Y; [destruct (proj1 (X e) (or_intror Y)) as [<-|Z]|destruct (proj2 (X e) (or_intror Y)) as [<-|Z]]; auto; contradiction.
Qed.
Lemma steps_snoc : forall os us m m1 o u m2, steps K V ltb dv m os us m1 -> step K V ltb dv m1 o u m2 -> steps K V ltb dv m (os ++ [o]) (us ++ [u]) m2.
Proof.
  intros os us m m1 o u m2 H. induction H as [m m' Hm|m o' u' m1 os us m2' H1 H2 IH]; intro S'; cbn [app].
  - econstructor; [|constructor; reflexivity]. assert (X : forall j, m j = m' j) by (intro; symmetry; apply Hm). clear Hm.
    assert (L1 : forall l, lists K V ltb m' l -> lists K V ltb m l) by (intros l [A B]; split; [intros k v; rewrite X; apply A|exact B]).
    destruct S'; try (econstructor; intros; rewrite ?X; eauto; fail).
    + rewrite <- (X k). constructor. intro; rewrite X; auto.
    + constructor; [|intros; rewrite X; eauto]. destruct H as (ks & A & B & C). exists ks. split; [exact A|]. split; [exact B|]. intro k. rewrite X. apply C.
    + constructor; [|intros; rewrite X; eauto]. rewrite H. split; intros Y j; [rewrite X|rewrite <- X]; apply Y.
  - econstructor; [exact H1|]. apply IH. exact S'.
Qed.
End H.
