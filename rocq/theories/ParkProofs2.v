(** unpark: exact effect on every well-formed queue, and histories. *)
From Verif Require Import Prelude HashModel HashProofs ParkModel ParkSpec ParkProofs.

Lemma wake_ok q l a n : holds q l -> cell q a n -> exists q', wake q a = Ret q' /\ holds q' l /\ length (qmem q') = length (qmem q) /\ qcount q' = qcount q /\ qlist q' = qlist q /\
  forall j, nth_error (qmem q') j = if Nat.eqb j a then Some (Some (w_sig n)) else nth_error (qmem q) j.
Proof.
  intros (C & N & Z) H. unfold wake, cell in *. rewrite (proj2 (ld_ret _ _ _) H). cbn [rbind].
  destruct (st_ret (qmem q) a n (w_sig n) H) as (m & E & L & G). rewrite E. cbn [rbind]. eexists. split; [reflexivity|]. cbn.
  split; [|repeat split; try assumption]. split; [|split; assumption]. cbn. apply (chain_ext (qmem q) _ _ _ C).
  intros b nb I Hb. rewrite G. destruct (Nat.eqb_spec b a) as [->|]; [|exists nb; split; [exact Hb|reflexivity]].
  rewrite H in Hb. injection Hb as <-. eexists. split; [reflexivity|]. reflexivity.
Qed.

Lemma chain_next m p pre a post n : chain m p (pre ++ a :: post) -> nth_error m a = Some (Some n) -> nnext n = hd_error post.
Proof.
  intros C H. revert p C. induction pre as [|x pre IH]; intros p C; cbn in C; inversion C as [|? n' ? H' C']; subst; [|eauto].
  rewrite H in H'. injection H' as <-. exact (chain_head _ _ _ C').
Qed.

Lemma freed_ub q a : freed q a -> ld (qmem q) a = Ub.
Proof. unfold freed, ld. intros ->. reflexivity. Qed.

(** erase of the successor followed by wake *)
Lemma remove_wake q l pre a post n : holds q l -> l = pre ++ a :: post -> cell q a n -> exists q',
  rbind (erase q (nnext n)) (fun q => wake q a) = Ret q' /\ holds q' (pre ++ a :: tl post) /\ qcount q' = qcount q /\ qlist q' = qlist q /\
  length (qmem q') = length (qmem q) /\ (exists n', cell q' a n' /\ nsig n' = true /\ nkey n' = nkey n /\ nlot n' = nlot n /\ ndata n' = ndata n) /\
  (forall b, hd_error post = Some b -> freed q' b) /\
  (forall c, c <> a -> hd_error post <> Some c -> nth_error (qmem q') c = nth_error (qmem q) c).
Proof.
  intros H E Ha. pose proof H as (C & N & Z). subst l.
  rewrite (chain_next _ _ _ _ _ _ C Ha).
  destruct (erase_succ q _ pre a post H eq_refl) as (q1 & E1 & H1 & Lq1 & C1 & L1 & F1 & S1 & O1). rewrite E1. cbn [rbind].
  assert (Na : hd_error post <> Some a).
  { intros X. destruct post as [|b post]; [discriminate|]. injection X as ->. apply NoDup_remove_2 in N. apply N.
    apply in_or_app. right. left. reflexivity. }
  destruct (S1 a n Na Ha) as (n1 & Ha1 & K1 & K2 & K3 & K4).
  destruct (wake_ok q1 _ a n1 H1 Ha1) as (q2 & E2 & H2 & L2 & C2 & Lq2 & G2). exists q2.
  split; [exact E2|]. split; [exact H2|]. split; [congruence|]. split; [congruence|]. split; [congruence|].
  split; [exists (w_sig n1); split; [unfold cell; rewrite G2, Nat.eqb_refl; reflexivity|cbn; repeat split; congruence]|].
  split.
  - intros b Hb. specialize (F1 b Hb). unfold freed in *. rewrite G2. destruct (Nat.eqb_spec b a) as [->|]; [congruence|exact F1].
  - intros c Nc Hc. rewrite G2. rewrite (proj2 (Nat.eqb_neq c a) Nc). apply O1; assumption.
Qed.

Section U.
Context {St : Type}.
Variable func : St -> N -> St * control.

Lemma unpark_loop_wf lot key : forall suf fuel q pre p s, holds q (pre ++ suf) -> p = hd_error suf -> length suf <= fuel ->
  match unpark_loop func fuel lot key q p s with
  | Ret (q', _) => (exists l, holds q' l) /\ length (qmem q') = length (qmem q)
  | Ub => True
  | Oof => False
  end.
Proof.
  induction suf as [|a post IH]; intros fuel q pre p s H E L; subst p.
  - destruct fuel; cbn; split; eauto.
  - destruct fuel as [|f]; [cbn in L; lia|]. cbn [hd_error unpark_loop].
    pose proof H as (C & N & Z). destruct (chain_cell _ _ _ C a) as [n Ha]; [apply in_or_app; right; left; reflexivity|].
    rewrite (proj2 (ld_ret _ _ _) Ha). cbn [rbind].
    pose proof (chain_next _ _ _ _ _ _ C Ha) as En. cbn in L.
    assert (IH' : forall s, match unpark_loop func f lot key q (nnext n) s with
      | Ret (q', _) => (exists l, holds q' l) /\ length (qmem q') = length (qmem q) | Ub => True | Oof => False end).
    { intros s'. apply (IH f q (pre ++ [a])); [rewrite <- app_assoc; exact H|exact En|lia]. }
    destruct (N.eqb (nkey n) key && Nat.eqb (nlot n) lot); [|apply IH'].
    destruct (func s (ndata n)) as [s' c].
    destruct (removes c) eqn:R.
    + destruct (remove_wake q _ pre a post n H eq_refl Ha) as (q' & E1 & H1 & _ & _ & L1 & _ & F1 & _). rewrite E1. cbn [rbind].
      destruct (breaks c); [split; eauto|].
      rewrite En. destruct post as [|b post].
      * destruct f; cbn; split; eauto.
      * destruct f as [|f]; [cbn in L; lia|]. cbn [hd_error unpark_loop]. rewrite (freed_ub q' b) by (apply F1; reflexivity). cbn. exact I.
    + cbn [rbind]. destruct (breaks c); [split; eauto|apply IH'].
Qed.

Lemma unpark_wf lot addr q l s : holds q l ->
  match unpark func lot addr q s with
  | Ret (q', _) => (exists l, holds q' l) /\ length (qmem q') = length (qmem q) | Ub => True | Oof => False end.
Proof.
  intros H. unfold unpark. destruct (Z.eqb_spec (qcount q) 0); [split; eauto|].
  pose proof H as (C & N & Z). apply (unpark_loop_wf lot _ l _ q []); [exact H|exact (chain_head _ _ _ C)|].
  pose proof (chain_len _ _ _ C N). lia.
Qed.

(** skipping the nodes that do not match *)
Lemma unpark_loop_skip lot key suf : forall pre2 fuel q pre s, holds q (pre ++ pre2 ++ suf) -> length (pre2 ++ suf) <= fuel ->
  (forall a n, In a pre2 -> cell q a n -> nkey n = key -> nlot n = lot -> False) ->
  exists fuel', length suf <= fuel' /\ unpark_loop func fuel lot key q (hd_error (pre2 ++ suf)) s = unpark_loop func fuel' lot key q (hd_error suf) s.
Proof.
  induction pre2 as [|a pre2 IH]; intros fuel q pre s H L X; [exists fuel; split; [exact L|reflexivity]|].
  pose proof H as (C & N & Z). destruct (chain_cell _ _ _ C a) as [n Ha]; [apply in_or_app; right; left; reflexivity|].
  destruct fuel as [|f]; [cbn in L; lia|].
  destruct (IH f q (pre ++ [a]) s) as (f' & Lf & E); [rewrite <- app_assoc; exact H|cbn in L; lia|intros; eapply X; eauto; right; assumption|].
  exists f'. split; [exact Lf|]. rewrite <- E.
  assert (En : nnext n = hd_error (pre2 ++ suf)) by exact (chain_next _ _ _ _ (pre2 ++ suf) _ C Ha).
  change (hd_error ((a :: pre2) ++ suf)) with (Some a). cbn [unpark_loop]. rewrite (proj2 (ld_ret _ _ _) Ha). cbn [rbind].
  rewrite <- En.
  destruct (N.eqb_spec (nkey n) key) as [K|]; [|reflexivity]. destruct (Nat.eqb_spec (nlot n) lot) as [M|]; [|reflexivity].
  exfalso. exact (X a n (or_introl eq_refl) Ha K M).
Qed.
End U.

Definition nomatch (q : queue) (lot : nat) (addr : N) (l : list nat) : Prop := forall a, In a l -> ~ parked_on q lot addr a.

Lemma unpark_none {St} (func : St -> N -> St * control) lot addr q l s : holds q l -> nomatch q lot addr l -> unpark func lot addr q s = Ret (q, s).
Proof.
  intros H X. unfold unpark. destruct (Z.eqb_spec (qcount q) 0) as [|_]; [reflexivity|].
  pose proof H as (C & N & Z). rewrite (chain_head _ _ _ C).
  destruct (unpark_loop_skip func lot (twang_mix64 addr) [] l (S (length (qmem q))) q [] s) as (f & _ & E).
  - rewrite app_nil_r. exact H.
  - rewrite app_nil_r. pose proof (chain_len _ _ _ C N). lia.
  - intros a n I Hc K M. apply (X a I). exists n. auto.
  - rewrite app_nil_r in E. rewrite E. destruct f; reflexivity.
Qed.

Lemma unpark_first {St} (func : St -> N -> St * control) lot addr q pre a post s n : holds q (pre ++ a :: post) -> nomatch q lot addr pre ->
  cell q a n -> nkey n = twang_mix64 addr -> nlot n = lot ->
  exists f, length post <= f /\ unpark func lot addr q s =
    (let '(s', c) := func s (ndata n) in
     rbind (if removes c then rbind (erase q (nnext n)) (fun q => wake q a) else Ret q) (fun q' =>
     if breaks c then Ret (q', s') else unpark_loop func f lot (twang_mix64 addr) q' (hd_error post) s')).
Proof.
  intros H X Ha K M. unfold unpark. pose proof H as (C & N & Z). rewrite app_length in Z. cbn in Z.
  destruct (Z.eqb_spec (qcount q) 0) as [|_]; [lia|].
  rewrite (chain_head _ _ _ C).
  destruct (unpark_loop_skip func lot (twang_mix64 addr) (a :: post) pre (S (length (qmem q))) q [] s) as (f & Lf & E).
  - exact H.
  - pose proof (chain_len _ _ _ C N). lia.
  - intros b nb I Hc K' M'. apply (X b I). exists nb. auto.
  - rewrite E. destruct f as [|f]; [cbn in Lf; lia|]. exists f. split; [cbn in Lf; lia|]. cbn [hd_error unpark_loop].
    rewrite (proj2 (ld_ret _ _ _) Ha). cbn [rbind]. rewrite K, M, N.eqb_refl, Nat.eqb_refl. cbn [andb].
    rewrite (chain_next _ _ _ _ _ _ C Ha). reflexivity.
Qed.

(** first matching node, or none *)
Lemma first_match q lot addr l : (forall a, In a l -> exists n, cell q a n) ->
  nomatch q lot addr l \/ exists pre a post, l = pre ++ a :: post /\ nomatch q lot addr pre /\ parked_on q lot addr a.
Proof.
  induction l as [|b l IH]; intros Cl; [left; intros a []|].
  destruct (Cl b (or_introl eq_refl)) as [n Hb].
  destruct (N.eq_dec (nkey n) (twang_mix64 addr)) as [K|K]; [destruct (Nat.eq_dec (nlot n) lot) as [M|M]|].
  - right. exists [], b, l. split; [reflexivity|]. split; [intros a []|]. exists n. auto.
  - destruct IH as [X|(pre & a & post & E & X & P)]; [intros; apply Cl; right; assumption| |].
    + left. intros a [<-|I]; [|apply X; exact I]. intros (n' & Hb' & K' & M'). unfold cell in *. congruence.
    + right. exists (b :: pre), a, post. split; [rewrite E; reflexivity|]. split; [|exact P].
      intros c [<-|I]; [|apply X; exact I]. intros (n' & Hb' & K' & M'). unfold cell in *. congruence.
  - destruct IH as [X|(pre & a & post & E & X & P)]; [intros; apply Cl; right; assumption| |].
    + left. intros a [<-|I]; [|apply X; exact I]. intros (n' & Hb' & K' & M'). unfold cell in *. congruence.
    + right. exists (b :: pre), a, post. split; [rewrite E; reflexivity|]. split; [|exact P].
      intros c [<-|I]; [|apply X; exact I]. intros (n' & Hb' & K' & M'). unfold cell in *. congruence.
Qed.

Lemma holds_insert q l k lot d : holds q l -> forall q' a, insert_head (mkQ (qmem q) (qlist q) (qcount q + 1)) k lot d = (q', a) ->
  a = length (qmem q) /\ holds q' (a :: l) /\ cell q' a (mkNode k lot d false (qlist q)) /\ length (qmem q') = S (length (qmem q)) /\
  (forall b, b < length (qmem q) -> nth_error (qmem q') b = nth_error (qmem q) b).
Proof.
  intros (C & N & Z) q' a E. unfold insert_head in E. cbn in E. injection E as <- <-. cbn.
  assert (G : nth_error (qmem q ++ [Some (mkNode k lot d false (qlist q))]) (length (qmem q)) = Some (Some (mkNode k lot d false (qlist q)))).
  { rewrite nth_error_app2 by lia. rewrite Nat.sub_diag. reflexivity. }
  split; [reflexivity|]. split; [|split; [exact G|split; [rewrite app_length; cbn; lia|]]].
  - split; [|split].
    + cbn. apply (ch_cons _ _ _ _ G). cbn. apply (chain_ext (qmem q) _ _ _ C). intros b n I Hb. exists n. split; [|reflexivity].
      rewrite nth_error_app1 by (apply nth_error_Some; rewrite Hb; discriminate). exact Hb.
    + constructor; [|exact N]. intros I. pose proof (chain_lt _ _ _ C _ I). lia.
    + cbn [length qcount]. lia.
  - intros b Lb. apply nth_error_app1. exact Lb.
Qed.

(** erase of a waiter that is in the queue behind the head *)
Lemma erase_inner q h pre b post : holds q (h :: pre ++ b :: post) -> exists q', erase q (Some b) = Ret q' /\ holds q' (h :: pre ++ post) /\ freed q' b /\
  length (qmem q') = length (qmem q) /\
  forall c n, c <> b -> cell q c n -> exists n', cell q' c n' /\ nkey n' = nkey n /\ nlot n' = nlot n /\ ndata n' = ndata n /\ nsig n' = nsig n.
Proof.
  intros H. assert (exists pre0 a0, h :: pre = pre0 ++ [a0]) as (pre0 & a0 & E0).
  { destruct (exists_last (l := h :: pre)) as (x & y & e); [discriminate|]. eauto. }
  destruct (erase_succ q _ pre0 a0 (b :: post) H) as (q' & E & H' & _ & _ & L & F & S & _).
  { change (h :: pre ++ b :: post) with ((h :: pre) ++ b :: post). rewrite E0, <- app_assoc. reflexivity. }
  exists q'. split; [exact E|]. split; [|split; [apply F; reflexivity|split; [exact L|]]].
  - cbn [tl] in H'. replace (h :: pre ++ post) with ((h :: pre) ++ post) by reflexivity. rewrite E0, <- app_assoc. exact H'.
  - intros c n Nc. apply S. cbn. congruence.
Qed.

Lemma erase_absent_or q l a : holds q l -> match erase q (Some a) with Ret q' => (exists l', holds q' l') /\ length (qmem q') = length (qmem q) | Ub => True | Oof => False end.
Proof.
  intros H. destruct l as [|h t].
  - destruct H as (C & _). unfold erase. rewrite (chain_head _ _ _ C). cbn. exact I.
  - destruct (in_dec Nat.eq_dec a t) as [I|I].
    + apply in_split in I as (t1 & t2 & ->). destruct (erase_inner q h t1 a t2 H) as (q' & E & H' & _ & L & _). rewrite E. split; eauto.
    + pose proof H as (C & N & Z). unfold erase. rewrite (chain_head _ _ _ C). cbn [hd_error].
      destruct (ptr_eqb (Some h) (Some a)) eqn:P; [exact Logic.I|].
      rewrite (chain_head _ _ _ C) in C. cbn in C. inversion C as [|? n ? Hh C']; subst. rewrite (proj2 (ld_ret _ _ _) Hh). cbn [rbind].
      rewrite (erase_loop_absent _ _ h _ (Some a) t C').
      * cbn [rbind]. split; [|reflexivity]. exists (h :: t). destruct H as (C0 & _). split; [|split; [exact N|exact Z]].
        exact C.
      * pose proof (chain_len _ _ _ C N) as X. cbn in X. lia.
      * intros b Ib [= ->]. contradiction.
Qed.

Lemma exec_wf o q l : holds q l -> match exec o q with Ret q' => exists l', holds q' l' | Ub => True | Oof => False end.
Proof.
  intros H. destruct o as [lot addr d c|lot addr|lot addr|lot addr ct mk|a|a]; cbn [exec].
  - unfold park. destruct c; [|eauto].
    destruct (insert_head _ _ _ _) as [q' a] eqn:E. destruct (holds_insert q l _ _ _ H _ _ E) as (_ & H' & _). cbn. eauto.
  - pose proof (unpark_wf wake_one lot addr q l tt H) as X. destruct (unpark wake_one lot addr q tt) as [[q' s]| |]; cbn; tauto.
  - pose proof (unpark_wf wake_all lot addr q l tt H) as X. destruct (unpark wake_all lot addr q tt) as [[q' s]| |]; cbn; tauto.
  - unfold futex_wake. pose proof (unpark_wf (wake_n mk) lot addr q l (ct, 0%Z) H) as X.
    destruct (unpark (wake_n mk) lot addr q (ct, 0%Z)) as [[q' s]| |]; cbn; tauto.
  - unfold timeout. destruct (ld (qmem q) a) as [n| |] eqn:E; cbn [rbind]; try exact I; [|unfold ld in E; destruct (nth_error _ _) as [[]|]; discriminate].
    destruct (nsig n); cbn [rbind]; [eauto|]. pose proof (erase_absent_or q l a H) as X.
    destruct (erase q (Some a)) as [q'| |]; cbn; tauto.
  - destruct (ld (qmem q) a) as [n| |] eqn:E; cbn [rbind]; eauto. unfold ld in E; destruct (nth_error _ _) as [[]|]; discriminate.
Qed.

Lemma run_wf h : forall q l, holds q l -> match run h q with Ret q' => exists l', holds q' l' | Ub => True | Oof => False end.
Proof.
  induction h as [|o h IH]; intros q l H; cbn [run]; [eauto|]. pose proof (exec_wf o q l H) as X.
  destruct (exec o q) as [q'| |]; cbn [rbind]; [destruct X as [l' X]; exact (IH q' l' X)|exact I|exact X].
Qed.

(** one waiter at a time *)
Definition okphase (q : queue) (ph : phase) : Prop :=
  match ph with
  | Nobody => True
  | Asleep i lot addr => qlist q = Some i /\ exists n, cell q i n /\ nsig n = false /\ nkey n = twang_mix64 addr /\ nlot n = lot /\ (addr < 2 ^ 64)%N
  | Woken i => qlist q = Some i /\ signalled q i
  end.

Lemma mix_inj a b : (a < 2 ^ 64)%N -> (b < 2 ^ 64)%N -> twang_mix64 a = twang_mix64 b -> a = b.
Proof. intros La Lb E. rewrite <- (proj1 (mix_inv a La)), <- (proj1 (mix_inv b Lb)), E. reflexivity. Qed.

Lemma wake_one_step q l lot addr : holds q l -> exists q' l', unpark wake_one lot addr q tt = Ret (q', tt) /\ holds q' l' /\ length (qmem q') = length (qmem q) /\ qlist q' = qlist q /\
  ((nomatch q lot addr l /\ q' = q) \/
   exists pre a post, l = pre ++ a :: post /\ l' = pre ++ a :: tl post /\ nomatch q lot addr pre /\ parked_on q lot addr a /\ signalled q' a /\ parked_on q' lot addr a /\
    (forall b, hd_error post = Some b -> freed q' b) /\ (forall c, c <> a -> hd_error post <> Some c -> nth_error (qmem q') c = nth_error (qmem q) c)).
Proof.
  intros H. pose proof H as (C & N & Z).
  destruct (first_match q lot addr l (chain_cell _ _ _ C)) as [X|(pre & a & post & E & X & (n & Ha & K & M))].
  - exists q, l. rewrite (unpark_none wake_one lot addr q l tt H X). split; [reflexivity|]. split; [exact H|]. auto.
  - subst l. destruct (unpark_first wake_one lot addr q pre a post tt n H X Ha K M) as (f & _ & Eu). rewrite Eu. cbn [wake_one removes breaks].
    destruct (remove_wake q _ pre a post n H eq_refl Ha) as (q' & E1 & H1 & C1 & Q1 & L1 & (n' & Ha' & S' & K' & M' & _) & F1 & O1). rewrite E1. cbn [rbind].
    exists q', (pre ++ a :: tl post). split; [reflexivity|]. split; [exact H1|]. split; [exact L1|]. split; [exact Q1|]. right.
    exists pre, a, post. repeat split; try assumption.
    + exists n. auto.
    + exists n'. auto.
    + exists n'. rewrite K', M'. auto.
Qed.

Lemma one_step o q l n ph n' ph' : holds q l -> length (qmem q) = n -> okphase q ph ->
  match o with Park _ a _ _ | WakeOne _ a | WakeAll _ a | FutexWake _ a _ _ => (a < 2 ^ 64)%N | _ => True end ->
  spec_step o (n, ph) = Some (n', ph') -> exists q' l', exec o q = Ret q' /\ holds q' l' /\ length (qmem q') = n' /\ okphase q' ph'.
Proof.
  intros H L P A E. destruct o as [lot addr d c|lot addr|lot addr|lot addr ct mk|a|a]; cbn [spec_step] in E; try discriminate.
  - destruct c.
    + destruct ph; try discriminate. injection E as <- <-. cbn [exec]. unfold park.
      destruct (insert_head _ _ _ _) as [q' a] eqn:Ei. destruct (holds_insert q l _ _ _ H _ _ Ei) as (Ea & H' & Hc & L' & _).
      exists q', (a :: l). split; [reflexivity|]. split; [exact H'|]. split; [lia|]. cbn [okphase].
      assert (En : n = a) by congruence. rewrite En.
      split; [destruct H' as (C' & _); exact (chain_head _ _ _ C')|].
      eexists. split; [exact Hc|]. cbn. repeat split; try reflexivity. exact A.
    + assert (E' : (n', ph') = (n, ph)) by (destruct ph; congruence). injection E' as -> ->. exists q, l. cbn. auto.
  - destruct (wake_one_step q l lot addr H) as (q' & l' & Eu & H' & L' & Q' & W). cbn [exec]. rewrite Eu. cbn [rbind fst].
    destruct ph as [|i lot' addr'|i].
    + injection E as <- <-. exists q', l'. repeat split; try assumption; try (destruct H' as (?&?&?); assumption). congruence.
    + injection E as <- <-. cbn in P. destruct P as (Pq & ni & Hi & Si & Ki & Mi & Ai).
      exists q', l'. split; [reflexivity|]. split; [exact H'|]. split; [congruence|].
      destruct H as (C & N & Z). pose proof (chain_head _ _ _ C) as Hh. rewrite Pq in Hh. destruct l as [|i' t]; [discriminate|]. injection Hh as <-.
      destruct (Nat.eqb_spec lot lot') as [Elot|Nlot]; [destruct (N.eqb_spec addr addr') as [Ead|Nad]|].
      * subst lot' addr'. cbn. split; [congruence|].
        destruct W as [(X & _)|(pre & a & post & El & _ & X & _ & Sa & _)].
        -- exfalso. apply (X i (or_introl eq_refl)). exists ni. auto.
        -- destruct pre as [|x pre]; cbn in El; [injection El as <- _; exact Sa|]. exfalso. injection El as <- _.
           apply (X i (or_introl eq_refl)). exists ni. auto.
      * cbn. split; [congruence|]. exists ni. split; [|auto].
        destruct W as [(X & ->)|(pre & a & post & El & _ & X & Pa & _ & _ & _ & O)]; [exact Hi|].
        assert (Nia : i <> a).
        { intros <-. destruct Pa as (na & Ha & Ka & Ma). unfold cell in *. rewrite Hi in Ha. injection Ha as <-. apply Nad.
          apply mix_inj; [exact A|exact Ai|congruence]. }
        unfold cell. rewrite O; [exact Hi|exact Nia|]. intros X2. destruct post as [|b post]; [discriminate|]. injection X2 as ->.
        destruct pre as [|x pre]; cbn in El; injection El as -> El; [congruence|]. subst t.
        inversion N as [|? ? N1 N2]; subst. apply N1. apply in_or_app. right. right. left. reflexivity.
      * cbn. split; [congruence|]. exists ni. split; [|auto].
        destruct W as [(X & ->)|(pre & a & post & El & _ & X & Pa & _ & _ & _ & O)]; [exact Hi|].
        assert (Nia : i <> a).
        { intros <-. destruct Pa as (na & Ha & Ka & Ma). unfold cell in *. rewrite Hi in Ha. injection Ha as <-. congruence. }
        unfold cell. rewrite O; [exact Hi|exact Nia|]. intros X2. destruct post as [|b post]; [discriminate|]. injection X2 as ->.
        destruct pre as [|x pre]; cbn in El; injection El as -> El; [congruence|]. subst t.
        inversion N as [|? ? N1 N2]; subst. apply N1. apply in_or_app. right. right. left. reflexivity.
    + injection E as <- <-. cbn in P. destruct P as (Pq & ni & Hi & Si).
      exists q', l'. split; [reflexivity|]. split; [exact H'|]. split; [congruence|].
      destruct H as (C & N & Z). pose proof (chain_head _ _ _ C) as Hh. rewrite Pq in Hh. destruct l as [|i' t]; [discriminate|]. injection Hh as <-.
      cbn. split; [congruence|].
      destruct W as [(X & ->)|(pre & a & post & El & _ & X & Pa & Sa & _ & _ & O)]; [exists ni; auto|].
      destruct (Nat.eq_dec i a) as [<-|Nia]; [exact Sa|].
      exists ni. split; [|exact Si].
      unfold cell. rewrite O; [exact Hi|exact Nia|]. intros X2. destruct post as [|b post]; [discriminate|]. injection X2 as ->.
      destruct pre as [|x pre]; cbn in El; injection El as -> El; [congruence|]. subst t.
      inversion N as [|? ? N1 N2]; subst. apply N1. apply in_or_app. right. right. left. reflexivity.
  - destruct ph as [| |i]; try discriminate. destruct (Nat.eqb_spec a i) as [->|]; [|discriminate]. injection E as <- <-.
    destruct P as (Pq & ni & Hi & Si). exists q, l. cbn [exec]. rewrite (proj2 (ld_ret _ _ _) Hi). cbn. auto.
Qed.

Lemma one_run h : forall q l n ph n' ph', holds q l -> length (qmem q) = n -> okphase q ph -> addresses_64 h ->
  spec_run h (n, ph) = Some (n', ph') -> exists q' l', run h q = Ret q' /\ holds q' l' /\ okphase q' ph'.
Proof.
  induction h as [|o h IH]; intros q l n ph n' ph' H L P A E; cbn [run spec_run] in *.
  - injection E as <- <-. eauto.
  - inversion A as [|? ? A1 A2]; subst. destruct (spec_step o (length (qmem q), ph)) as [[n1 ph1]|] eqn:Es; [|discriminate].
    destruct (one_step o q l _ ph n1 ph1 H eq_refl P A1 Es) as (q1 & l1 & E1 & H1 & L1 & P1). rewrite E1. cbn [rbind].
    exact (IH q1 l1 n1 ph1 n' ph' H1 L1 P1 A2 E).
Qed.
