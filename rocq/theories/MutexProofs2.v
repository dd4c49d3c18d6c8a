(** No lost wake-up while at most one thread waits. *)
From Verif Require Import Prelude HashModel HashProofs ParkModel ParkSpec ParkProofs ParkProofs2 MutexModel MutexSpec MutexProofs.

(** threads that have incremented _count and not yet inserted or decremented *)
Definition counted (p : pc) : bool := match p with Park2 _ _ | Park2a _ _ | Park2b _ | Park3 _ => true | _ => false end.
Definition b2n (b : bool) : nat := if b then 1 else 0.
Definition ncounted (l : list pc) : nat := length (filter counted l).
Lemma ncounted_upd l t p p' l' : nth_error l t = Some p -> upd l t p' = Some l' -> ncounted l' + b2n (counted p) = ncounted l + b2n (counted p').
Proof.
  unfold ncounted. revert t l'. induction l as [|x l IH]; intros t l' E U; [destruct t; discriminate|].
  destruct t as [|t]; cbn in E, U.
  - injection E as ->. injection U as <-. cbn. destruct (counted p), (counted p'); cbn; lia.
  - destruct (upd l t p') as [l1|] eqn:Eu; [|discriminate]. injection U as <-. specialize (IH t l1 E Eu). cbn. destruct (counted x); cbn; lia.
Qed.
Lemma ncounted_pos l t p : nth_error l t = Some p -> counted p = true -> 1 <= ncounted l.
Proof.
  unfold ncounted. revert t. induction l as [|x l IH]; intros t E C; [destruct t; discriminate|].
  destruct t as [|t]; cbn in E; [injection E as ->; cbn; rewrite C; cbn; lia|]. specialize (IH t E C). cbn. destruct (counted x); cbn; lia.
Qed.

(** threads in the critical section of the queue *)
Definition inq (p : pc) : bool := match p with Park2a _ _ | Park2b _ | Unp3 => true | _ => false end.
Definition unp (p : pc) : bool := match p with Unp1 | Unp2 | Unp3 => true | _ => false end.

Section J.
Variable lot : nat.
Variable addr : N.
Record J (s : state) (o : option nat) (l : list nat) : Prop := {
  j_inv : Inv s o;
  j_q : holds (que (sh s)) l;
  j_key : forall a, In a l -> parked_on (que (sh s)) lot addr a;
  j_cnt : (Z.of_nat (length l + ncounted (thr s)) <= qcount (que (sh s)))%Z;
  j_lk : forall t p, nth_error (thr s) t = Some p -> inq p = true -> qlk (sh s) = Some t;
  j_wait : forall t a spin, nth_error (thr s) t = Some (Wait a spin) -> hd_error l = Some a;
  j_k : forall t p, nth_error (thr s) t = Some p ->
        (exists spin, p = Park2b spin) \/ (exists a spin, p = Wait a spin /\ ~ signalled (que (sh s)) a) ->
        o <> None \/ exists u, waking s u }.

(** a step of a thread that stays out of the queue *)
Lemma j_local s o l t p p' sh' o' thr' : J s o l -> nth_error (thr s) t = Some p -> upd (thr s) t p' = Some thr' -> Inv (mkState sh' thr') o' ->
  que sh' = que (sh s) -> qlk sh' = qlk (sh s) -> counted p' = counted p -> inq p' = false -> inq p = false ->
  (forall a spin, p' <> Wait a spin) -> (forall spin, p' <> Park2b spin) -> (unp p = true -> unp p' = true) -> (o <> None -> o' <> None \/ unp p' = true) ->
  J (mkState sh' thr') o' l.
Proof.
  intros [II Q Ky C Lk Wt K] E U I' Eq El Ct Nq Nq0 Nw Np Un Oo. constructor; cbn [sh thr que qlk word]; try rewrite Eq; try assumption.
  - pose proof (ncounted_upd _ _ _ _ _ E U) as X. rewrite Ct in X. clear -X C. lia.
  - intros u q Hq X. rewrite El. destruct (thr_upd _ _ _ _ U u q Hq) as [[-> ->]|[N Hq']]; [congruence|]. exact (Lk u q Hq' X).
  - intros u a spin Hq. destruct (thr_upd _ _ _ _ U u _ Hq) as [[-> X]|[N Hq']]; [exfalso; exact (Nw _ _ (eq_sym X))|]. exact (Wt u a spin Hq').
  - intros u q Hq X. destruct (thr_upd _ _ _ _ U u q Hq) as [[-> ->]|[N Hq']].
    + exfalso. destruct X as [[spin X]|(a & spin & X & _)]; [exact (Np _ X)|exact (Nw _ _ X)].
    + assert (Wk : unp p' = true -> exists v, waking (mkState sh' thr') v).
      { intros Hu. exists t. exists p'. cbn. split; [exact (upd_nth_eq _ _ _ _ U)|]. destruct p'; try discriminate; exact Logic.I. }
      destruct (K u q Hq' X) as [Ho|(v & pv & Ev & Hv)].
      * destruct (Oo Ho) as [Ho'|Hu]; [left; exact Ho'|right; exact (Wk Hu)].
      * right. destruct (Nat.eq_dec v t) as [->|Nv].
        -- apply Wk. apply Un. rewrite E in Ev. injection Ev as <-. destruct p; try destruct Hv; reflexivity.
        -- exists v. exists pv. cbn. split; [|exact Hv]. rewrite (upd_nth_neq _ _ _ _ _ U (not_eq_sym Nv)). exact Ev.
Qed.

Lemma retry_shape w spin : (w = 0%N \/ w = 1%N) -> counted (retry w spin) = false /\ inq (retry w spin) = false /\
  (forall a sp, retry w spin <> Wait a sp) /\ (forall sp, retry w spin <> Park2b sp) /\ unp (retry w spin) = false.
Proof.
  intros [-> | ->]; unfold retry; cbn; [repeat split; discriminate|].
  destruct (N.ltb spin_limit (u32 (spin + 1))); cbn; repeat split; discriminate.
Qed.
Lemma after_load_shape w : (w = 0%N \/ w = 1%N) -> counted (after_load w) = false /\ inq (after_load w) = false /\
  (forall a sp, after_load w <> Wait a sp) /\ (forall sp, after_load w <> Park2b sp) /\ unp (after_load w) = false.
Proof. intros H. unfold after_load. destruct (N.eqb w 0); [cbn; repeat split; discriminate|]. apply retry_shape; exact H. Qed.
Lemma try_shape w p : try_head w = Some p -> p = TCas w.
Proof. unfold try_head. destruct (N.eqb w 0); congruence. Qed.

Lemma sig_cell (q q' : queue) a : (forall b n, cell q b n -> cell q' b n) -> (exists n, cell q a n) -> ~ signalled q' a -> ~ signalled q a.
Proof. intros X _ H (n & Hc & S). apply H. exists n. auto. Qed.

Lemma holds_count q l d : holds q l -> (0 <= d)%Z -> holds (count_add q d) l.
Proof. intros (C & N & Z) H. split; [exact C|]. split; [exact N|]. cbn. lia. Qed.

(** steps within the queue *)
Lemma j_insert s o l t spin thr' : J s o l -> nth_error (thr s) t = Some (Park2b spin) ->
  upd (thr s) t (Wait (snd (insert_head (que (sh s)) (twang_mix64 addr) lot kMask)) spin) = Some thr' ->
  (forall u, ~ in_wait s u) -> exists l',
  J (mkState (mkS (word (sh s)) (fst (insert_head (que (sh s)) (twang_mix64 addr) lot kMask)) None) thr') o l'.
Proof.
  intros [II Q Ky C Lk Wt K] E U Nw.
  assert (Q1 : holds (mkQ (qmem (que (sh s))) (qlist (que (sh s))) (qcount (que (sh s)) - 1)) l).
  { destruct Q as (Qc & Qn & Qz). split; [exact Qc|]. split; [exact Qn|]. cbn. pose proof (ncounted_pos _ _ _ E eq_refl). lia. }
  destruct (insert_head (que (sh s)) (twang_mix64 addr) lot kMask) as [q' a] eqn:Ei. cbn [fst snd] in *.
  assert (Ei' : insert_head (mkQ (qmem (mkQ (qmem (que (sh s))) (qlist (que (sh s))) (qcount (que (sh s)) - 1))) (qlist (mkQ (qmem (que (sh s))) (qlist (que (sh s))) (qcount (que (sh s)) - 1)))
    (qcount (mkQ (qmem (que (sh s))) (qlist (que (sh s))) (qcount (que (sh s)) - 1)) + 1)) (twang_mix64 addr) lot kMask = (q', a)).
  { cbn. rewrite <- Ei. unfold insert_head. cbn. repeat f_equal. lia. }
  destruct (holds_insert _ l _ _ _ Q1 _ _ Ei') as (Ea & Q' & Hc & L' & Old). cbn in Old, Ea.
  assert (Cq : qcount q' = qcount (que (sh s))) by (unfold insert_head in Ei; injection Ei as <- _; reflexivity).
  assert (Oldc : forall b n, cell (que (sh s)) b n -> cell q' b n).
  { intros b n H. unfold cell in *. rewrite Old; [exact H|]. apply nth_error_Some. congruence. }
  exists (a :: l). constructor; cbn [sh thr que qlk word].
  - eapply inv_same; [exact II|exact E|exact U|reflexivity|exact Logic.I|reflexivity].
  - exact Q'.
  - intros b [<-|I]; [eexists; split; [exact Hc|split; reflexivity]|]. destruct (Ky b I) as (n & H1 & H2 & H3). exists n. auto.
  - pose proof (ncounted_upd _ _ _ _ _ E U) as X. cbn [counted b2n] in X. cbn [length]. rewrite Cq. lia.
  - intros u q Hq X. destruct (thr_upd _ _ _ _ U u q Hq) as [[-> ->]|[N Hq']]; [discriminate|].
    exfalso. pose proof (Lk u q Hq' X) as A. pose proof (Lk t _ E eq_refl) as B. congruence.
  - intros u b sp Hq. destruct (thr_upd _ _ _ _ U u _ Hq) as [[-> X]|[N Hq']]; [injection X as -> _; reflexivity|]. exfalso. apply (Nw u). exists b, sp. exact Hq'.
  - intros u q Hq _. destruct (K t _ E (or_introl (ex_intro _ spin eq_refl))) as [Ho|(v & pv & Ev & Hv)]; [left; exact Ho|].
    right. exists v, pv. cbn. split; [|exact Hv]. destruct (Nat.eq_dec v t) as [->|Nv].
    + rewrite E in Ev. injection Ev as <-. destruct Hv.
    + rewrite (upd_nth_neq _ _ _ _ _ U (not_eq_sym Nv)). exact Ev.
Qed.

Lemma unp3_ok s o l : J s o l -> exists q' l', unpark_loop wake_one (S (length (qmem (que (sh s))))) lot (twang_mix64 addr) (que (sh s)) (qlist (que (sh s))) tt = Ret (q', tt) /\
  holds q' l' /\ qcount q' = qcount (que (sh s)) /\ length l' <= length l /\ (forall a, In a l' -> parked_on q' lot addr a) /\
  (forall a, hd_error l = Some a -> hd_error l' = Some a /\ signalled q' a).
Proof.
  intros [II Q Ky C Lk Wt K]. destruct l as [|a post].
  - destruct Q as (Qc & Qn & Qz). exists (que (sh s)), []. rewrite (chain_head _ _ _ Qc). cbn.
    split; [reflexivity|]. split; [split; [exact Qc|split; assumption]|]. split; [reflexivity|]. split; [lia|]. split; [intros x []|intros x [=]].
  - destruct (Ky a (or_introl eq_refl)) as (n & Ha & Kk & Km). pose proof Q as (Qc & Qn & Qz). rewrite (chain_head _ _ _ Qc). cbn [hd_error unpark_loop].
    rewrite (proj2 (ld_ret _ _ _) Ha). cbn [rbind]. rewrite Kk, Km, N.eqb_refl, Nat.eqb_refl. cbn [andb wake_one removes breaks].
    destruct (remove_wake (que (sh s)) _ [] a post n Q eq_refl Ha) as (q' & E1 & H1 & C1 & Q1 & L1 & (n' & Ha' & S' & K' & M' & _) & F1 & O1). rewrite E1. cbn [rbind].
    exists q', (a :: tl post). split; [reflexivity|]. split; [exact H1|]. split; [exact C1|]. split; [destruct post; cbn; lia|].
    split; [|intros b [= <-]; split; [reflexivity|exists n'; auto]].
    intros b [<-|I]; [exists n'; rewrite K', M'; auto|].
    destruct post as [|c post]; [destruct I|]. cbn in I.
    destruct (Ky b ltac:(right; right; exact I)) as (nb & Hb & Kb & Mb). exists nb. split; [|auto].
    unfold cell in *. rewrite O1; [exact Hb| |].
    + intros ->. inversion Qn as [|? ? N1 N2]; subst. apply N1. right. exact I.
    + cbn. intros [= ->]. inversion Qn as [|? ? N1 N2]; subst. inversion N2 as [|? ? N3 N4]; subst. contradiction.
Qed.

Lemma j_unp3 s o l t q' thr' : J s o l -> nth_error (thr s) t = Some Unp3 -> upd (thr s) t Idle = Some thr' ->
  unpark_loop wake_one (S (length (qmem (que (sh s))))) lot (twang_mix64 addr) (que (sh s)) (qlist (que (sh s))) tt = Ret (q', tt) ->
  exists l', J (mkState (mkS (word (sh s)) q' None) thr') o l'.
Proof.
  intros JJ E U Eu. destruct (unp3_ok s o l JJ) as (q'' & l' & Eu' & H' & C' & L' & Ky' & Hd). rewrite Eu in Eu'. injection Eu' as <-.
  destruct JJ as [II Q Ky C Lk Wt K]. exists l'. constructor; cbn [sh thr que qlk word]; try assumption.
  - eapply inv_same; [exact II|exact E|exact U|reflexivity|exact Logic.I|reflexivity].
  - pose proof (ncounted_upd _ _ _ _ _ E U) as X. cbn [counted b2n] in X. rewrite C'. lia.
  - intros u q Hq X. destruct (thr_upd _ _ _ _ U u q Hq) as [[-> ->]|[N Hq']]; [discriminate|].
    exfalso. pose proof (Lk u q Hq' X) as A. pose proof (Lk t _ E eq_refl) as B. congruence.
  - intros u b sp Hq. destruct (thr_upd _ _ _ _ U u _ Hq) as [[-> X]|[N Hq']]; [discriminate|]. apply Hd. exact (Wt u b sp Hq').
  - intros u q Hq X. exfalso. destruct (thr_upd _ _ _ _ U u q Hq) as [[-> ->]|[N Hq']].
    + destruct X as [[sp X]|(a & sp & X & _)]; discriminate.
    + destruct X as [[sp ->]|(a & sp & -> & Ns)].
      * pose proof (Lk u _ Hq' eq_refl) as A. pose proof (Lk t _ E eq_refl) as B. congruence.
      * apply Ns. apply Hd. exact (Wt u a sp Hq').
Qed.

Lemma j_count s o l t p p' d thr' : J s o l -> nth_error (thr s) t = Some p -> upd (thr s) t p' = Some thr' ->
  pcok p' -> own p' = own p -> (d = Z.of_nat (b2n (counted p')) - Z.of_nat (b2n (counted p)))%Z -> inq p' = false -> inq p = false -> unp p = false ->
  (forall a spin, p' <> Wait a spin) -> (forall spin, p' <> Park2b spin) ->
  J (mkState (mkS (word (sh s)) (count_add (que (sh s)) d) (qlk (sh s))) thr') o l.
Proof.
  intros [II Q Ky C Lk Wt K] E U Pk Ow Ed Nq Nq0 Nu Nw Np.
  pose proof (ncounted_upd _ _ _ _ _ E U) as X.
  constructor; cbn [sh thr que qlk word].
  - eapply inv_same; [exact II|exact E|exact U|reflexivity|exact Pk|exact Ow].
  - destruct Q as (Qc & Qn & Qz). split; [exact Qc|]. split; [exact Qn|]. cbn. lia.
  - exact Ky.
  - cbn [count_add qcount]. clear -C X Ed. lia.
  - intros u q Hq Y. destruct (thr_upd _ _ _ _ U u q Hq) as [[-> ->]|[N Hq']]; [congruence|]. exact (Lk u q Hq' Y).
  - intros u a spin Hq. destruct (thr_upd _ _ _ _ U u _ Hq) as [[-> Y]|[N Hq']]; [exfalso; exact (Nw _ _ (eq_sym Y))|]. exact (Wt u a spin Hq').
  - intros u q Hq Y. destruct (thr_upd _ _ _ _ U u q Hq) as [[-> ->]|[N Hq']].
    + exfalso. destruct Y as [[spin Y]|(a & spin & Y & _)]; [exact (Np _ Y)|exact (Nw _ _ Y)].
    + destruct (K u q Hq' Y) as [Ho|(v & pv & Ev & Hv)]; [left; exact Ho|]. right. exists v, pv. cbn. split; [|exact Hv].
      destruct (Nat.eq_dec v t) as [->|Nv]; [rewrite E in Ev; injection Ev as <-; destruct p; try destruct Hv; discriminate|].
      rewrite (upd_nth_neq _ _ _ _ _ U (not_eq_sym Nv)). exact Ev.
Qed.

(** taking the queue lock, and the condition of parkFor *)
Lemma j_lock s o l t p p' k thr' : J s o l -> nth_error (thr s) t = Some p -> upd (thr s) t p' = Some thr' ->
  pcok p' -> own p' = own p -> counted p' = counted p ->
  (k = Some t /\ qlk (sh s) = None \/ k = qlk (sh s) /\ k = Some t \/ k = None /\ inq p = true /\ inq p' = false) ->
  (forall a spin, p' <> Wait a spin) -> (unp p = true -> unp p' = true) -> ((exists spin, p' = Park2b spin) -> o <> None) ->
  J (mkState (mkS (word (sh s)) (que (sh s)) k) thr') o l.
Proof.
  intros [II Q Ky C Lk Wt K] E U Pk Ow Ct Hk Nw Un Np.
  pose proof (ncounted_upd _ _ _ _ _ E U) as X. rewrite Ct in X.
  constructor; cbn [sh thr que qlk word]; try assumption.
  - eapply inv_same; [exact II|exact E|exact U|reflexivity|exact Pk|exact Ow].
  - clear -X C. lia.
  - intros u q Hq Y. destruct (thr_upd _ _ _ _ U u q Hq) as [[-> ->]|[N Hq']].
    + destruct Hk as [[-> _]|[[_ ->]|(_ & _ & Z)]]; [reflexivity|reflexivity|congruence].
    + pose proof (Lk u q Hq' Y) as A. destruct Hk as [[_ B]|[[B B']|(_ & B & _)]]; [congruence|congruence|].
      pose proof (Lk t p E B). congruence.
  - intros u a spin Hq. destruct (thr_upd _ _ _ _ U u _ Hq) as [[-> Y]|[N Hq']]; [exfalso; exact (Nw _ _ (eq_sym Y))|]. exact (Wt u a spin Hq').
  - intros u q Hq Y. destruct (thr_upd _ _ _ _ U u q Hq) as [[-> ->]|[N Hq']].
    + destruct Y as [Y|(a & spin & Y & _)]; [left; exact (Np Y)|exfalso; exact (Nw _ _ Y)].
    + destruct (K u q Hq' Y) as [Ho|(v & pv & Ev & Hv)]; [left; exact Ho|]. right.
      destruct (Nat.eq_dec v t) as [->|Nv].
      * exists t, p'. cbn. split; [exact (upd_nth_eq _ _ _ _ U)|]. rewrite E in Ev. injection Ev as <-.
        assert (Hu : unp p' = true) by (apply Un; destruct p; try destruct Hv; reflexivity). destruct p'; try discriminate; exact Logic.I.
      * exists v, pv. cbn. split; [|exact Hv]. rewrite (upd_nth_neq _ _ _ _ _ U (not_eq_sym Nv)). exact Ev.
Qed.

Lemma j_unp1 s o l t thr' : J s o l -> nth_error (thr s) t = Some Unp1 -> upd (thr s) t Idle = Some thr' -> qcount (que (sh s)) = 0%Z ->
  J (mkState (sh s) thr') o l.
Proof.
  intros [II Q Ky C Lk Wt K] E U Z.
  pose proof (ncounted_upd _ _ _ _ _ E U) as X. cbn [counted b2n] in X.
  constructor; cbn [sh thr que qlk word]; try assumption.
  - eapply inv_same; [exact II|exact E|exact U|reflexivity|exact Logic.I|reflexivity].
  - lia.
  - intros u q Hq Y. destruct (thr_upd _ _ _ _ U u q Hq) as [[-> ->]|[N Hq']]; [discriminate|]. exact (Lk u q Hq' Y).
  - intros u a spin Hq. destruct (thr_upd _ _ _ _ U u _ Hq) as [[-> Y]|[N Hq']]; [discriminate|]. exact (Wt u a spin Hq').
  - intros u q Hq Y. exfalso. destruct (thr_upd _ _ _ _ U u q Hq) as [[-> ->]|[N Hq']].
    + destruct Y as [[sp Y]|(a & sp & Y & _)]; discriminate.
    + destruct Y as [[sp ->]|(a & sp & -> & _)].
      * pose proof (ncounted_pos _ _ _ Hq' eq_refl). lia.
      * pose proof (Wt u a sp Hq') as Hd. destruct l; [discriminate|]. cbn [length] in C. lia.
Qed.

(** the invariant is kept by every step that does not start a second wait *)
Lemma j_step s o l e s' : J s o l -> step strict lot addr s e s' -> (forall t spin, e = (t, Tau) -> nth_error (thr s) t = Some (Park2b spin) -> forall u, ~ in_wait s u) ->
  exists o' l', J s' o' l'.
Proof.
  intros JJ H NW. pose proof (j_inv _ _ _ JJ) as II. destruct (inv_step _ _ _ _ _ _ _ II H) as (o' & Lg & I').
  inversion H as [s0 t p lb sh' p' thr' E T U]; subst.
  pose proof (i_word _ _ II) as W. pose proof (i_thr _ _ II t p E) as [Pk Ow].
  pose proof (wordof_01 o) as W01. rewrite <- W in W01.
  inversion T; subst; try discriminate;
   try (exists o', l; eapply j_local; [exact JJ|exact E|exact U|exact I'|reflexivity|reflexivity|..];
     first [reflexivity
           |intros; discriminate
           |apply (retry_shape _ _ W01)
           |apply (after_load_shape _ W01)
           |match goal with Hy : try_head _ = Some _ |- _ => apply try_shape in Hy; subst; first [reflexivity|intros; discriminate] end
           |intros Ho; first [left; cbn in Lg; congruence | left; destruct o; cbn in Lg; congruence | right; reflexivity]
           |idtac]; fail).
  - (* Park1 *) exists o, l. eapply j_count; [exact JJ|exact E|exact U|exact Pk|reflexivity|reflexivity|reflexivity|reflexivity|reflexivity|discriminate|discriminate].
  - (* Park2 *) exists o, l. eapply j_lock; [exact JJ|exact E|exact U|exact Pk|reflexivity|reflexivity|left; auto|discriminate|discriminate|intros [sp X]; discriminate].
  - (* Park2a yes *) exists o, l. destruct s as [shs thrs]. cbn in *. destruct shs as [w0 q0 k0]. cbn in *.
    pose proof (j_lk _ _ _ JJ t _ E eq_refl) as Kk. cbn in Kk.
    eapply (j_lock (mkState (mkS w0 q0 k0) thrs) o l t _ _ k0); [exact JJ|exact E|exact U|exact Logic.I|reflexivity|reflexivity|right; left; auto|discriminate|discriminate|].
    intros _ Ho. subst o. cbn in W. congruence.
  - (* Park2a no *) exists o, l. eapply j_lock; [exact JJ|exact E|exact U|exact Logic.I|reflexivity|reflexivity|right; right; auto|discriminate|discriminate|intros [sp X]; discriminate].
  - (* Park2b *) destruct (j_insert s o l t spin thr' JJ E U) as [l' J'].
    + exact (NW t spin eq_refl E).
    + exists o, l'. exact J'.
  - (* Park3 *) exists o, l. eapply j_count; [exact JJ|exact E|exact U|exact Logic.I|reflexivity|reflexivity|reflexivity|reflexivity|reflexivity|discriminate|discriminate].
  - (* UCas *) exists o', l. assert (Ho : o = Some t) by (apply Ow; reflexivity). subst o. cbn in W. cbn in Lg. rewrite Nat.eqb_refl in Lg. injection Lg as <-.
    rewrite W in *. cbn in U, I'.
    eapply j_local; [exact JJ|exact E|exact U|exact I'|reflexivity|reflexivity|reflexivity|reflexivity|reflexivity|discriminate|discriminate|discriminate|right; reflexivity].
  - (* Unp1 none *) exists o, l. eapply j_unp1; eassumption.
  - (* Unp2 *) exists o, l. eapply j_lock; [exact JJ|exact E|exact U|exact Logic.I|reflexivity|reflexivity|left; auto|discriminate|reflexivity|intros [sp X]; discriminate].
  - (* Unp3 *) destruct (j_unp3 s o l t q' thr' JJ E U) as [l' J']; [assumption|]. exists o, l'. exact J'.
Qed.

Lemma j_init n : J (init n) None [].
Proof.
  constructor; cbn [sh thr que qlk word].
  - apply inv_init.
  - split; [constructor|split; [constructor|cbn; lia]].
  - intros a [].
  - cbn [init thr sh que qcount]. unfold ncounted. assert (filter counted (repeat Idle n) = []) as -> by (induction n; cbn; auto). cbn. lia.
  - intros t p H X. cbn [init thr] in H. apply nth_error_In in H. apply repeat_spec in H. subst p. discriminate.
  - intros t a sp H. cbn [init thr] in H. apply nth_error_In in H. apply repeat_spec in H. discriminate.
  - intros t p H X. cbn [init thr] in H. apply nth_error_In in H. apply repeat_spec in H. subst p. destruct X as [[sp X]|(a & sp & X & _)]; discriminate.
Qed.

Lemma j_exec1 n s : exec1 lot addr (init n) s -> exists o l, J s o l.
Proof.
  intros H. remember (init n) as s0 eqn:E0. induction H as [s|s s1 e s2 H IH St One]; subst; [exists None, []; apply j_init|].
  destruct (IH eq_refl) as (o & l & JJ). eapply j_step; [exact JJ|exact St|].
  intros t spin -> Et u (a & sp & Eu). inversion St as [s0 t0 p lb sh' p' thr' E T U]; subst. rewrite Et in E. injection E as <-.
  inversion T; subst; try discriminate.
  assert (Nut : u <> t) by (intros ->; rewrite Et in Eu; discriminate). apply Nut. apply One.
  - exists a, sp. cbn. rewrite (upd_nth_neq _ _ _ _ _ U (not_eq_sym Nut)). exact Eu.
  - eexists _, spin. cbn. exact (upd_nth_eq _ _ _ _ U).
Qed.

Lemma j_no_undefined s o l : J s o l -> no_undefined lot addr s.
Proof.
  intros JJ t p E X. destruct p; cbn [undefined] in X; try contradiction.
  - pose proof (j_wait _ _ _ JJ t a spin E) as Hd. destruct (j_q _ _ _ JJ) as (C & _). destruct l as [|b l]; [discriminate|]. injection Hd as ->.
    destruct (chain_cell _ _ _ C a (or_introl eq_refl)) as [n Hn]. rewrite (proj2 (ld_ret _ _ _) Hn) in X. discriminate.
  - destruct (unp3_ok s o l JJ) as (q' & l' & Eu & _). congruence.
Qed.
Lemma j_no_lost s o l t : J s o l -> asleep s t -> (exists u, owns s u) \/ exists u, waking s u.
Proof.
  intros JJ (a & sp & E & Ns). destruct (j_k _ _ _ JJ t _ E) as [Ho|Hw]; [right; exists a, sp; auto| |right; exact Hw].
  left. destruct o as [u|]; [|contradiction]. exists u. apply (inv_owns s (Some u) u (j_inv _ _ _ JJ)). reflexivity.
Qed.

(** two threads never wait at the same time *)
Lemma two_exec s evs : exec strict lot addr (init 2) evs s -> (exists o l, J s o l) /\ length (thr s) = 2.
Proof.
  intros H. remember (init 2) as s0 eqn:E0. induction H as [s|s evs s1 e s2 H IH St]; subst; [split; [exists None, []; apply j_init|reflexivity]|].
  destruct (IH eq_refl) as ((o & l & JJ) & L). split.
  - eapply j_step; [exact JJ|exact St|]. intros t spin -> Et u (a & sp & Eu).
    assert (Lt : t < 2) by (rewrite <- L; apply nth_error_Some; congruence).
    assert (Lu : u < 2) by (rewrite <- L; apply nth_error_Some; congruence).
    assert (Nut : u <> t) by (intros ->; rewrite Et in Eu; discriminate).
    assert (All : forall v p, nth_error (thr s1) v = Some p -> own p = false /\ unp p = false).
    { intros v p Ev. assert (Lv : v < 2) by (rewrite <- L; apply nth_error_Some; congruence).
      assert (v = t \/ v = u) as [-> | ->] by lia; [rewrite Et in Ev|rewrite Eu in Ev]; injection Ev as <-; split; reflexivity. }
    destruct (j_k _ _ _ JJ t _ Et (or_introl (ex_intro _ spin eq_refl))) as [Ho|(v & pv & Ev & Hv)].
    + destruct o as [v|]; [|contradiction]. pose proof (proj2 (inv_owns s1 (Some v) v (j_inv _ _ _ JJ)) eq_refl) as (p & Ep & X).
      destruct (All v p Ep) as [A _]. destruct p; try destruct X; discriminate.
    + destruct (All v pv Ev) as [_ A]. destruct pv; try destruct Hv; discriminate.
  - inversion St; subst. cbn. match goal with Hu : upd _ _ _ = Some _ |- _ => rewrite (upd_length _ _ _ _ Hu) end. exact L.
Qed.
End J.
