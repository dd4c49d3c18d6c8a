From Verif Require Import Prelude CmapModel CmapSpec.

Section PROOFS.
Context {K V : Type} (eqk : forall a b : K, {a = b} + {a <> b}).
Implicit Types (l : list (option (K * V))) (s : state K V) (es : list (event K V)).
Notation lookup := (lookup eqk).
Notation body := (body eqk).

Lemma store_length l i n : length (store l i n) = length l.
Proof. revert i. induction l as [|x l IH]; intros [|i]; simpl; auto. Qed.
Lemma store_eq l i n : i < length l -> nth_error (store l i n) i = Some n.
Proof. revert i. induction l as [|x l IH]; intros [|i]; simpl; try lia; auto. intros H. apply IH. lia. Qed.
Lemma store_neq l i j n : i <> j -> nth_error (store l i n) j = nth_error l j.
Proof. revert i j. induction l as [|x l IH]; intros [|i] [|j]; simpl; auto; try congruence. Qed.

(* keys are unique *)
Definition uniq l := forall i j k v w, nth_error l i = Some (Some (k, v)) -> nth_error l j = Some (Some (k, w)) -> i = j.

Lemma lookup_some l k i : lookup k l = Some i -> exists v, nth_error l i = Some (Some (k, v)).
Proof.
  revert i. induction l as [|x l IH]; simpl; [discriminate|]. intros i.
  destruct (node_of eqk k x) eqn:E.
  - intros [= <-]. destruct x as [[k' v]|]; simpl in E; [|discriminate]. destruct (eqk k k') as [<-|]; [|discriminate]. simpl. eauto.
  - destruct (lookup k l) as [j|]; simpl; [|discriminate]. intros [= <-]. simpl. auto.
Qed.
Lemma lookup_none l k i v : lookup k l = None -> nth_error l i <> Some (Some (k, v)).
Proof.
  revert i. induction l as [|x l IH]; simpl; intros i.
  - destruct i; discriminate.
  - destruct (node_of eqk k x) eqn:E; [discriminate|]. destruct (lookup k l) as [j|]; simpl; [discriminate|]. intros _.
    destruct i; simpl; [|auto]. intros [= ->]. simpl in E. destruct (eqk k k); congruence.
Qed.
Lemma lookup_unique l k i v : uniq l -> nth_error l i = Some (Some (k, v)) -> lookup k l = Some i.
Proof.
  intros U H. destruct (lookup k l) as [j|] eqn:E.
  - destruct (lookup_some _ _ _ E) as [w Hw]. f_equal. eapply U; eauto.
  - exfalso. exact (lookup_none _ _ _ _ E H).
Qed.

(* the nodes hold the map m *)
Definition holds l (m : @map K V) := uniq l /\ forall k v, m k = Some v <-> exists i, nth_error l i = Some (Some (k, v)).

Lemma holds_lookup l m k : holds l m ->
  match lookup k l with Some i => exists v, m k = Some v /\ nth_error l i = Some (Some (k, v)) | None => m k = None end.
Proof.
  intros [U H]. destruct (lookup k l) as [i|] eqn:E.
  - destruct (lookup_some _ _ _ E) as [v Hv]. exists v. split; auto. apply H. eauto.
  - destruct (m k) as [v|] eqn:E'; auto. apply H in E'. destruct E' as [i Hi]. exfalso. exact (lookup_none _ _ _ _ E Hi).
Qed.

Lemma nth_snoc l n i x : nth_error (l ++ [n]) i = Some x -> nth_error l i = Some x \/ i = length l /\ x = n.
Proof.
  intros H. destruct (Nat.lt_ge_cases i (length l)).
  - rewrite nth_error_app1 in H by auto. auto.
  - rewrite nth_error_app2 in H by auto. destruct (i - length l) as [|d] eqn:E; simpl in H.
    + injection H as <-. right. split; [lia|auto].
    + destruct d; discriminate.
Qed.

Lemma snoc_holds l m k v : holds l m -> lookup k l = None -> holds (l ++ [Some (k, v)]) (with_ eqk m k (Some v)).
Proof.
  intros [U H] E. split.
  - intros i j k' v1 v2 H1 H2. apply nth_snoc in H1, H2.
    destruct H1 as [H1|[-> H1]], H2 as [H2|[-> H2]]; auto.
    + eapply U; eauto.
    + injection H2 as -> ->. exfalso. exact (lookup_none _ _ _ _ E H1).
    + injection H1 as -> ->. exfalso. exact (lookup_none _ _ _ _ E H2).
  - intros k' v'. unfold with_. destruct (eqk k' k) as [->|N].
    + split.
      * intros [= ->]. exists (length l). rewrite nth_error_app2, Nat.sub_diag by lia. reflexivity.
      * intros [i Hi]. apply nth_snoc in Hi. destruct Hi as [Hi|[_ Hi]]; [exfalso; exact (lookup_none _ _ _ _ E Hi)|congruence].
    + rewrite H. split; intros [i Hi].
      * exists i. rewrite nth_error_app1; auto. eapply nth_error_some_lt; eauto.
      * apply nth_snoc in Hi. destruct Hi as [Hi|[_ Hi]]; [eauto|congruence].
Qed.

Lemma store_holds l m k i n : holds l m -> lookup k l = Some i -> (n = None \/ exists v, n = Some (k, v)) ->
  holds (store l i n) (with_ eqk m k (option_map snd n)).
Proof.
  intros [U H] E Hn. destruct (lookup_some _ _ _ E) as [v0 Hi].
  pose proof (nth_error_some_lt _ _ _ Hi) as Li.
  assert (Old : forall j k' v, j <> i -> nth_error l j = Some (Some (k', v)) -> k' <> k)
    by (intros j k' v Hj Hl ->; apply Hj; eapply U; eauto).
  split.
  - intros a b k' v1 v2 H1 H2. destruct (Nat.eq_dec a i) as [->|Na], (Nat.eq_dec b i) as [->|Nb]; auto.
    + rewrite store_eq in H1 by auto. rewrite store_neq in H2 by auto. injection H1 as ->.
      destruct Hn as [Hn|[v Hn]]; [discriminate|]. injection Hn as -> ->. exfalso. exact (Old _ _ _ Nb H2 eq_refl).
    + rewrite store_eq in H2 by auto. rewrite store_neq in H1 by auto. injection H2 as ->.
      destruct Hn as [Hn|[v Hn]]; [discriminate|]. injection Hn as -> ->. exfalso. exact (Old _ _ _ Na H1 eq_refl).
    + rewrite store_neq in H1, H2 by auto. eapply U; eauto.
  - intros k' v. unfold with_. destruct (eqk k' k) as [->|N].
    + split.
      * intros Hs. exists i. rewrite store_eq by auto. destruct Hn as [->|[w ->]]; simpl in Hs; [discriminate|congruence].
      * intros [j Hj]. destruct (Nat.eq_dec j i) as [->|Nj].
        -- rewrite store_eq in Hj by auto. injection Hj as ->. reflexivity.
        -- rewrite store_neq in Hj by auto. exfalso. exact (Old _ _ _ Nj Hj eq_refl).
    + rewrite H. split; intros [j Hj]; exists j.
      * rewrite store_neq; auto. intros <-. congruence.
      * destruct (Nat.eq_dec j i) as [->|Nj]; [|rewrite store_neq in Hj by auto; auto].
        rewrite store_eq in Hj by auto. injection Hj as ->. destruct Hn as [Hn|[w Hn]]; [discriminate|congruence].
Qed.

Lemma body_holds o l l' r m : body o l = (l', r) -> holds l m -> holds l' (apply eqk m o).
Proof.
  intros B H. pose proof (holds_lookup l m) as L. destruct o as [k v|k|k v|k]; simpl in B |- *; specialize (L k H).
  - injection B as <- <-. destruct (lookup k l) as [i|] eqn:E.
    + apply (store_holds l m k i (Some (k, v))); eauto.
    + apply snoc_holds; auto.
  - injection B as <- <-. destruct (lookup k l) as [i|] eqn:E.
    + apply (store_holds l m k i None); eauto.
    + destruct H as [U H]. split; auto. intros k' v. unfold with_. destruct (eqk k' k) as [->|N]; auto.
      rewrite <- H. rewrite L. tauto.
  - destruct (lookup k l) as [i|] eqn:E; injection B as <- <-.
    + destruct L as (w & -> & _). exact H.
    + rewrite L. apply snoc_holds; auto.
  - injection B as <- <-. exact H.
Qed.

(* what an operation reports *)
Definition reports (m : @map K V) l (o : op K V) (r : res) : Prop :=
  match o with
  | Set_ _ _ | Erase _ => r = Unit
  | Emplace k _ => r = Inserted (match m k with Some _ => false | None => true end)
  | Find k => match m k with Some v => exists p, r = Ptr (Some p) /\ nth_error l p = Some (Some (k, v)) | None => r = Ptr None end
  end.
Lemma body_reports o l l' r m : body o l = (l', r) -> holds l m -> reports m l' o r.
Proof.
  intros B H. pose proof (holds_lookup l m) as L. destruct o as [k v|k|k v|k]; simpl in B |- *; specialize (L k H).
  - injection B as <- <-. reflexivity.
  - injection B as <- <-. reflexivity.
  - destruct (lookup k l) as [i|] eqn:E; injection B as <- <-.
    + destruct L as (w & -> & _). reflexivity.
    + rewrite L. reflexivity.
  - injection B as <- <-. destruct (lookup k l) as [i|] eqn:E.
    + destruct L as (w & -> & Hw). eauto.
    + rewrite L. reflexivity.
Qed.

(* a node keeps its address until its key is erased *)
Lemma body_keeps o l l' r k p v : body o l = (l', r) -> uniq l -> nth_error l p = Some (Some (k, v)) -> o <> Erase k ->
  exists v', nth_error l' p = Some (Some (k, v')).
Proof.
  intros B U H Ho. pose proof (nth_error_some_lt _ _ _ H) as Lp.
  assert (SN : forall n, exists v', nth_error (l ++ [n]) p = Some (Some (k, v'))) by (intros n; rewrite nth_error_app1 by auto; eauto).
  destruct o as [k' w|k'|k' w|k']; simpl in B.
  - injection B as <- <-. destruct (lookup k' l) as [i|] eqn:E; auto.
    destruct (Nat.eq_dec i p) as [->|N].
    + destruct (lookup_some _ _ _ E) as [w' Hw]. assert (k' = k) by congruence. subst k'. rewrite store_eq by auto. eauto.
    + rewrite store_neq by auto. eauto.
  - injection B as <- <-. destruct (lookup k' l) as [i|] eqn:E; [|eauto].
    destruct (Nat.eq_dec i p) as [->|N].
    + destruct (lookup_some _ _ _ E) as [w' Hw]. exfalso. apply Ho. congruence.
    + rewrite store_neq by auto. eauto.
  - destruct (lookup k' l) as [i|] eqn:E; injection B as <- <-; eauto.
  - injection B as <- <-. eauto.
Qed.

Definition none : @map K V := fun _ => None.
Lemma contents_app (m : @map K V) es es' : contents eqk m (es ++ es') = contents eqk (contents eqk m es) es'.
Proof. revert m. induction es as [|[t o r|t p v] es IH]; intros m; simpl; auto. Qed.

(* all the facts about a run *)
Definition excl s := forall t t' p p' o o', t <> t' -> nth_error (pcs s) t = Some p -> nth_error (pcs s) t' = Some p' ->
  inside p o -> inside p' o' -> writes o = false /\ writes o' = false.

Lemma excl_upd s t p0 p ps l : excl s -> nth_error (pcs s) t = Some p0 -> upd (pcs s) t p = Some ps ->
  (forall o, inside p o -> inside p0 o \/ existsb (blocks o) (pcs s) = false) -> excl (State l ps).
Proof.
  intros X E U H a b pa pb o o' N Ha Hb Ia Ib. simpl in Ha, Hb.
  assert (W : forall c pc_ o1 o2, c <> t -> inside p o1 -> nth_error ps c = Some pc_ -> inside pc_ o2 -> writes o1 = false /\ writes o2 = false).
  { intros c pc_ o1 o2 Nc I1 Hc I2. rewrite (upd_nth_neq _ _ _ _ _ U) in Hc by congruence.
    destruct (H o1 I1) as [I0|Ex].
    - eapply (X t c); eauto.
    - assert (Bl : blocks o1 pc_ = false).
      { destruct (blocks o1 pc_) eqn:Eb; auto. rewrite <- Ex. symmetry. apply existsb_exists. exists pc_. split; auto. eapply nth_error_In; eauto. }
      destruct I2 as [->|[r ->]]; simpl in Bl; apply orb_false_iff in Bl; exact Bl. }
  destruct (Nat.eq_dec a t) as [->|Na].
  - rewrite (upd_nth_eq _ _ _ _ U) in Ha. injection Ha as <-. eapply W; eauto.
  - destruct (Nat.eq_dec b t) as [->|Nb].
    + rewrite (upd_nth_eq _ _ _ _ U) in Hb. injection Hb as <-. destruct (W a pa o' o Na Ib Ha Ia). auto.
    + rewrite (upd_nth_neq _ _ _ _ _ U) in Ha by congruence. rewrite (upd_nth_neq _ _ _ _ _ U) in Hb by congruence.
      eapply (X a b); eauto.
Qed.

Inductive stepped (s : state K V) (t : nat) (s' : state K V) : list (event K V) -> Prop :=
| st_quiet : nodes s' = nodes s -> stepped s t s' []
| st_did o r : body o (nodes s) = (nodes s', r) -> stepped s t s' [Did t o r]
| st_read p : nodes s' = nodes s ->
    stepped s t s' [Read t p (match nth_error (nodes s) p with Some (Some (_, v)) => Some v | _ => None end)].

Lemma step_shape s t a s' e : step eqk s t a = Some (s', e) -> stepped s t s' e /\ (excl s -> excl s').
Proof.
  unfold step. destruct (nth_error (pcs s) t) as [p|] eqn:E; [|discriminate].
  destruct p as [|o|o|o r|p]; destruct a as [o1| |p1]; try discriminate.
  - destruct (upd (pcs s) t (Enter o1)) as [ps|] eqn:U; simpl; [|discriminate]. intros [= <- <-].
    split; [now constructor|]. intros X. eapply excl_upd; eauto. intros o [I|[r I]]; discriminate.
  - destruct (upd (pcs s) t (Deref p1)) as [ps|] eqn:U; simpl; [|discriminate]. intros [= <- <-].
    split; [now constructor|]. intros X. eapply excl_upd; eauto. intros o [I|[r I]]; discriminate.
  - destruct (existsb (blocks o) (pcs s)) eqn:B; [discriminate|].
    destruct (upd (pcs s) t (Within o)) as [ps|] eqn:U; simpl; [|discriminate]. intros [= <- <-].
    split; [now constructor|]. intros X. eapply excl_upd; eauto. intros o' [I|[r I]]; [|discriminate]. injection I as <-. auto.
  - destruct (body o (nodes s)) as [l r] eqn:B.
    destruct (upd (pcs s) t (Out o r)) as [ps|] eqn:U; simpl; [|discriminate]. intros [= <- <-].
    split; [now constructor|]. intros X. eapply excl_upd; eauto. intros o' [I|[r' I]]; [discriminate|]. injection I as <- <-.
    left. left. reflexivity.
  - destruct (upd (pcs s) t Idle) as [ps|] eqn:U; simpl; [|discriminate]. intros [= <- <-].
    split; [now constructor|]. intros X. eapply excl_upd; eauto. intros o' [I|[r' I]]; discriminate.
  - destruct (upd (pcs s) t Idle) as [ps|] eqn:U; simpl; [|discriminate]. intros [= <- <-].
    split; [now constructor|]. intros X. eapply excl_upd; eauto. intros o' [I|[r' I]]; discriminate.
Qed.

(* what is true of every event of the trace *)
Definition pointed es s := forall es1 es2 t k p, es = es1 ++ Did t (Find k) (Ptr (Some p)) :: es2 -> keeps k es2 ->
  exists v, nth_error (nodes s) p = Some (Some (k, v)).
Definition answered es := forall es1 es2 t o r, es = es1 ++ Did t o r :: es2 -> exists l, reports (contents eqk none es1) l o r.
Definition good_reads es := forall es1 es2 es3 t t' k p v, es = es1 ++ Did t (Find k) (Ptr (Some p)) :: es2 ++ Read t' p v :: es3 ->
  keeps k es2 -> v = contents eqk none (es1 ++ es2) k /\ v <> None.

Lemma snoc_split {X} (a b c : list X) x y : c ++ [x] = a ++ y :: b ->
  (b = [] /\ c = a /\ x = y) \/ exists b', b = b' ++ [x] /\ c = a ++ y :: b'.
Proof.
  destruct b as [|z b' _] using rev_ind; intros H.
  - apply app_inj_tail in H. destruct H as [-> ->]. auto.
  - right. exists b'. rewrite app_comm_cons, app_assoc in H. apply app_inj_tail in H. destruct H as [-> ->]. auto.
Qed.

Lemma run_all n es s : run eqk (start n) es s ->
  excl s /\ holds (nodes s) (contents eqk none es) /\ pointed es s /\ answered es /\ good_reads es.
Proof.
  intros R. remember (start n) as s0 eqn:E0. revert E0. induction R as [s|s es s1 t a e s2 R IH St]; intros ->.
  - assert (F : forall es1 (x : event K V) es2, [] <> es1 ++ x :: es2) by (intros [|] ? ?; discriminate).
    split; [|split; [|split; [|split]]].
    + intros t t' p p' o o' _ H _ [->|[r ->]]; simpl in H; apply nth_error_In, repeat_spec in H; discriminate.
    + split.
      * intros i j k v w H. destruct i; discriminate.
      * intros k v. split; [discriminate|]. intros [i H]. destruct i; discriminate.
    + intros es1 es2 t k p H. exfalso. exact (F _ _ _ H).
    + intros es1 es2 t o r H. exfalso. exact (F _ _ _ H).
    + intros es1 es2 es3 t t' k p v H. exfalso. exact (F _ _ _ H).
  - destruct (IH eq_refl) as (X & H & P & An & G). destruct (step_shape _ _ _ _ _ St) as [Sh Xs].
    split; [exact (Xs X)|]. clear Xs St. destruct Sh as [E|o r B|p E].
    + rewrite app_nil_r. rewrite E. split; [exact H|]. split; [|split; [exact An|exact G]].
      intros es1 es2 u k p Hes Hk. rewrite E. eapply P; eauto.
    + pose proof (body_holds _ _ _ _ _ B H) as H'. pose proof (body_reports _ _ _ _ _ B H) as Rp.
      split; [rewrite contents_app; exact H'|]. split; [|split].
      * intros es1 es2 u k p Hes Hk. apply snoc_split in Hes. destruct Hes as [(-> & -> & Ed)|(es2' & -> & ->)].
        -- injection Ed as <- -> ->. simpl in Rp. destruct (contents eqk none es1 k) as [v|]; [|discriminate].
           destruct Rp as (p' & [= <-] & Hp). eauto.
        -- destruct (P es1 es2' u k p eq_refl) as [v Hv].
           { intros u' r' Hin. apply (Hk u' r'). apply in_or_app. auto. }
           eapply (body_keeps _ _ _ _ _ _ _ B); [apply H|exact Hv|].
           intros ->. apply (Hk t r). apply in_or_app. right. left. reflexivity.
      * intros es1 es2 u o' r' Hes. apply snoc_split in Hes. destruct Hes as [(-> & -> & Ed)|(es2' & -> & ->)].
        -- injection Ed as <- <- <-. eauto.
        -- eapply An; eauto.
      * intros es1 es2 es3 u u' k p v Hes Hk.
        rewrite app_comm_cons, app_assoc in Hes. apply snoc_split in Hes. destruct Hes as [(-> & -> & Ed)|(es2' & -> & ->)]; [discriminate|].
        eapply G; [|exact Hk]. rewrite <- app_assoc. reflexivity.
    + rewrite contents_app. simpl. rewrite E. split; [exact H|]. split; [|split].
      * intros es1 es2 u k p' Hes Hk. rewrite E. apply snoc_split in Hes. destruct Hes as [(-> & -> & Ed)|(es2' & -> & ->)]; [discriminate|].
        eapply P; [reflexivity|]. intros u' r' Hin. apply (Hk u' r'). apply in_or_app. auto.
      * intros es1 es2 u o' r' Hes. apply snoc_split in Hes. destruct Hes as [(-> & -> & Ed)|(es2' & -> & ->)]; [discriminate|].
        eapply An; eauto.
      * intros es1 es2 es3 u u' k p' v Hes Hk.
        rewrite app_comm_cons, app_assoc in Hes. apply snoc_split in Hes. destruct Hes as [(-> & Ees & Ed)|(es2' & -> & ->)].
        -- injection Ed as <- <- <-. destruct (P es1 es2 u k p Ees Hk) as [v Hv]. rewrite Hv. split; [|discriminate].
           symmetry. assert (Hc : contents eqk none es k = Some v) by (apply H; eauto).
           rewrite Ees in Hc. rewrite contents_app in Hc |- *. exact Hc.
        -- eapply G; [|exact Hk]. rewrite <- app_assoc. reflexivity.
Qed.

(* running a schedule *)
Fixpoint play s (sch : list (nat * act K V)) : option (state K V * list (event K V)) :=
  match sch with
  | [] => Some (s, [])
  | (t, a) :: sch =>
      match step eqk s t a with
      | Some (s', e) => match play s' sch with Some (s'', e') => Some (s'', e ++ e') | None => None end
      | None => None
      end
  end.
Lemma run_trans s es s' es' s'' : run eqk s es s' -> run eqk s' es' s'' -> run eqk s (es ++ es') s''.
Proof.
  intros R R'. revert R. induction R' as [s'|s' es' s1 t a e s2 R' IH St]; intros R; [rewrite app_nil_r; auto|].
  rewrite app_assoc. econstructor; eauto.
Qed.
Lemma play_run s sch s' es : play s sch = Some (s', es) -> run eqk s es s'.
Proof.
  revert s es. induction sch as [|[t a] sch IH]; intros s es; simpl; [intros [= <- <-]; constructor|].
  destruct (step eqk s t a) as [[s1 e]|] eqn:E; [|discriminate].
  destruct (play s1 sch) as [[s2 e']|] eqn:E2; [|discriminate]. intros [= <- <-].
  apply (run_trans _ _ s1); [|auto]. change e with ([] ++ e). econstructor; [constructor|exact E].
Qed.
End PROOFS.
