(** Proofs about the parking lot model. *)
From Verif Require Import Prelude HashModel HashProofs ParkModel ParkSpec.

Lemma ld_ret m a n : ld m a = Ret n <-> nth_error m a = Some (Some n).
Proof. unfold ld. destruct (nth_error m a) as [[x|]|]; split; intros H; try discriminate; injection H as ->; reflexivity. Qed.
Lemma upd_get {A} (m m' : list A) i x j : upd m i x = Some m' -> nth_error m' j = if Nat.eqb j i then Some x else nth_error m j.
Proof.
  intros U. destruct (Nat.eqb_spec j i) as [->|N]; [exact (upd_nth_eq _ _ _ _ U)|exact (upd_nth_neq _ _ _ _ _ U (not_eq_sym N))].
Qed.
Lemma st_ret m a n0 n : nth_error m a = Some (Some n0) ->
  exists m', st m a n = Ret m' /\ length m' = length m /\ forall j, nth_error m' j = if Nat.eqb j a then Some (Some n) else nth_error m j.
Proof.
  intros H. unfold st. rewrite (proj2 (ld_ret _ _ _) H). cbn [rbind].
  destruct (upd_some m a (Some n)) as [m' U]; [apply nth_error_Some; rewrite H; discriminate|].
  rewrite U. exists m'. split; [reflexivity|]. split; [exact (upd_length _ _ _ _ U)|]. intros j. exact (upd_get _ _ _ _ _ U).
Qed.
Lemma del_ret m a n0 : nth_error m a = Some (Some n0) ->
  exists m', del m a = Ret m' /\ length m' = length m /\ forall j, nth_error m' j = if Nat.eqb j a then Some None else nth_error m j.
Proof.
  intros H. unfold del. rewrite (proj2 (ld_ret _ _ _) H). cbn [rbind].
  destruct (upd_some m a None) as [m' U]; [apply nth_error_Some; rewrite H; discriminate|].
  rewrite U. exists m'. split; [reflexivity|]. split; [exact (upd_length _ _ _ _ U)|]. intros j. exact (upd_get _ _ _ _ _ U).
Qed.
Lemma ptr_eqb_spec a b : ptr_eqb a b = true <-> a = b.
Proof.
  destruct a as [x|], b as [y|]; cbn; split; intros H; try discriminate; try reflexivity.
  - apply Nat.eqb_eq in H. congruence.
  - injection H as ->. apply Nat.eqb_refl.
Qed.
Lemma ptr_eqb_neq a b : a <> b -> ptr_eqb a b = false.
Proof. intros N. destruct (ptr_eqb a b) eqn:E; [|reflexivity]. apply ptr_eqb_spec in E. contradiction. Qed.

Lemma chain_lt m p l : chain m p l -> forall a, In a l -> a < length m.
Proof. induction 1 as [|a n l H C IH]; intros b I; [destruct I|destruct I as [<-|I]]; [apply nth_error_Some; rewrite H; discriminate|auto]. Qed.
Lemma chain_cell m p l : chain m p l -> forall a, In a l -> exists n, nth_error m a = Some (Some n).
Proof. induction 1 as [|a n l H C IH]; intros b I; [destruct I|destruct I as [<-|I]]; eauto. Qed.
Lemma chain_len m p l : chain m p l -> NoDup l -> length l <= length m.
Proof.
  intros C N. rewrite <- (seq_length (length m) 0). apply NoDup_incl_length; [exact N|].
  intros a I. apply in_seq. pose proof (chain_lt _ _ _ C a I). lia.
Qed.
Lemma chain_head m p l : chain m p l -> p = hd_error l.
Proof. destruct 1; reflexivity. Qed.
(** the links only matter on the nodes of the chain *)
Lemma chain_ext m m' p l : chain m p l ->
  (forall a n, In a l -> nth_error m a = Some (Some n) -> exists n', nth_error m' a = Some (Some n') /\ nnext n' = nnext n) -> chain m' p l.
Proof.
  induction 1 as [|a n l H C IH]; intros X; [constructor|].
  destruct (X a n (or_introl eq_refl) H) as (n' & H' & E). apply (ch_cons _ _ _ _ H'). rewrite E. apply IH.
  intros b nb I. apply X. right. exact I.
Qed.
Lemma chain_app m p l1 l2 : chain m p (l1 ++ l2) -> exists p2, chain m p2 l2.
Proof. revert p. induction l1 as [|a l1 IH]; intros p C; [exists p; exact C|]. cbn in C. inversion C; subst. eauto. Qed.

(** removing the node b that follows [pre ++ [a]] *)
Lemma chain_skip m m' p pre a b post na nb :
  chain m p (pre ++ a :: b :: post) -> NoDup (pre ++ a :: b :: post) ->
  nth_error m a = Some (Some na) -> nth_error m b = Some (Some nb) ->
  (forall j, nth_error m' j = if Nat.eqb j b then Some None else if Nat.eqb j a then Some (Some (w_next na (nnext nb))) else nth_error m j) ->
  chain m' p (pre ++ a :: post).
Proof.
  intros C N Ha Hb E. revert p C. induction pre as [|x pre IH]; intros p C.
  - cbn in C, N. inversion C as [|a' n' l' H C']; subst. rewrite Ha in H. injection H as <-.
    inversion C' as [|b' n' l'' H' C'']; subst. rewrite Hb in H'. injection H' as <-.
    inversion N as [|? ? N1 N2]; subst. inversion N2 as [|? ? N3 N4]; subst.
    apply (ch_cons _ _ (w_next na (nnext nb))).
    + rewrite E. destruct (Nat.eqb_spec a b) as [->|]; [exfalso; apply N1; left; reflexivity|]. rewrite Nat.eqb_refl. reflexivity.
    + cbn. apply (chain_ext m _ _ _ C''). intros c n I Hc. exists n. split; [|reflexivity]. rewrite E.
      destruct (Nat.eqb_spec c b) as [->|]; [contradiction|].
      destruct (Nat.eqb_spec c a) as [->|]; [exfalso; apply N1; right; exact I|exact Hc].
  - cbn in C, N. inversion C as [|a' n' l' H C']; subst. inversion N as [|? ? N1 N2]; subst. cbn.
    apply (ch_cons _ _ n').
    + rewrite E. destruct (Nat.eqb_spec x b) as [->|]; [exfalso; apply N1; apply in_or_app; right; right; left; reflexivity|].
      destruct (Nat.eqb_spec x a) as [->|]; [exfalso; apply N1; apply in_or_app; right; left; reflexivity|exact H].
    + apply IH; [exact N2|exact C'].
Qed.

(** erase of a node that is not in the (nonempty) queue, in particular null *)
Lemma erase_loop_absent fuel m prev cur nd l : chain m cur l -> length l <= fuel -> (forall a, In a l -> nd <> Some a) ->
  erase_loop fuel m prev cur nd = Ret m.
Proof.
  intros C. revert fuel prev. induction C as [|a n l H C IH]; intros fuel prev L A; [destruct fuel; reflexivity|].
  destruct fuel as [|f]; [cbn in L; lia|]. cbn.
  rewrite (ptr_eqb_neq nd (Some a)) by (apply A; left; reflexivity).
  rewrite (proj2 (ld_ret _ _ _) H). cbn [rbind]. apply IH; [cbn in L; lia|]. intros b I. apply A. right. exact I.
Qed.
Lemma last_cons {A} (l : list A) c d : last (c :: l) d = last l c.
Proof. revert c. induction l as [|x l IH]; intros c; [reflexivity|]. cbn in *. destruct l; [reflexivity|]. exact (IH c). Qed.
(** erase of the node b after a (not the head) *)
Lemma erase_loop_present fuel m p pre a b post : chain m (Some p) (p :: pre ++ b :: post) -> NoDup (p :: pre ++ b :: post) ->
  length pre < fuel -> a = last pre p -> forall cur n, nth_error m p = Some (Some n) -> nnext n = cur ->
  exists na nb m', nth_error m a = Some (Some na) /\ nth_error m b = Some (Some nb) /\ erase_loop fuel m p cur (Some b) = Ret m' /\
    length m' = length m /\
    forall j, nth_error m' j = if Nat.eqb j b then Some None else if Nat.eqb j a then Some (Some (w_next na (nnext nb))) else nth_error m j.
Proof.
  intros C. remember (p :: pre ++ b :: post) as l eqn:El. revert p pre El C fuel.
  induction l as [|x l IH]; intros p pre El C fuel N L Ea cur n Hp Hn; [discriminate|].
  injection El as -> El. inversion C as [|a' n' l' H C']; subst. rewrite Hp in H. injection H as <-.
  destruct fuel as [|f]; [lia|].
  destruct pre as [|c pre].
  - cbn in C'. inversion C' as [|b' nb l'' Hb C'']; subst. cbn.
    rewrite Nat.eqb_refl. cbn. rewrite (proj2 (ld_ret _ _ _) Hp), (proj2 (ld_ret _ _ _) Hb). cbn [rbind].
    inversion N as [|? ? N1 N2]; subst.
    assert (Hpb : p <> b) by (intros ->; apply N1; left; reflexivity).
    destruct (st_ret m p n (w_next n (nnext nb)) Hp) as (m1 & E1 & L1 & G1). rewrite E1. cbn [rbind].
    assert (Hb1 : nth_error m1 b = Some (Some nb)).
    { rewrite G1. destruct (Nat.eqb_spec b p); [congruence|exact Hb]. }
    destruct (del_ret m1 b nb Hb1) as (m2 & E2 & L2 & G2). exists n, nb, m2.
    split; [exact Hp|]. split; [exact Hb|]. split; [exact E2|]. split; [congruence|].
    intros j. rewrite G2. destruct (Nat.eqb j b); [reflexivity|]. apply G1.
  - cbn in C'. inversion C' as [|c' nc l'' Hc C'']; subst. inversion N as [|? ? N1 N2]; subst.
    cbn. assert (Hbc : b <> c).
    { intros ->. cbn in N2. inversion N2 as [|? ? N3 N4]; subst. apply N3. apply in_or_app. right. left. reflexivity. }
    rewrite (proj2 (Nat.eqb_neq b c) Hbc). rewrite (proj2 (ld_ret _ _ _) Hc). cbn [rbind].
    refine (IH c pre eq_refl (ch_cons _ _ _ _ Hc C'') f N2 _ (last_cons _ _ _) _ nc Hc eq_refl). cbn in L; lia.
Qed.

Lemma last_app_cons {A} (l : list A) a d : last (l ++ [a]) d = a.
Proof. induction l as [|x l IH]; [reflexivity|]. cbn. destruct (l ++ [a]) eqn:E; [destruct l; discriminate|exact IH]. Qed.

(** erase of the successor of a, or of null when a is last *)
Lemma erase_succ q l pre a post : holds q l -> l = pre ++ a :: post -> exists q',
  erase q (hd_error post) = Ret q' /\ holds q' (pre ++ a :: tl post) /\ qlist q' = qlist q /\ qcount q' = qcount q /\ length (qmem q') = length (qmem q) /\
  (forall b, hd_error post = Some b -> freed q' b) /\
  (forall c n, hd_error post <> Some c -> cell q c n -> exists n', cell q' c n' /\ nkey n' = nkey n /\ nlot n' = nlot n /\ ndata n' = ndata n /\ nsig n' = nsig n) /\
  (forall c, c <> a -> hd_error post <> Some c -> nth_error (qmem q') c = nth_error (qmem q) c).
Proof.
  intros (C & N & Z) E. subst l.
  assert (Hq : exists h t, pre ++ a :: post = h :: t /\ qlist q = Some h).
  { destruct (pre ++ a :: post) as [|h t] eqn:E; [destruct pre; discriminate|]. exists h, t. split; [reflexivity|].
    exact (chain_head _ _ _ C). }
  destruct Hq as (h & t & Eh & Hq). unfold erase.
  destruct post as [|b post].
  - cbn [hd_error tl]. rewrite Hq. cbn [ptr_eqb].
    rewrite Hq, Eh in C. inversion C as [|h' n l' Hh C']; subst. rewrite (proj2 (ld_ret _ _ _) Hh). cbn [rbind].
    assert (L : length t <= length (qmem q)).
    { pose proof (chain_len _ _ _ C) as X. rewrite Eh in N. specialize (X N). cbn in X. lia. }
    rewrite (erase_loop_absent _ _ h _ None _ C' L) by (intros; discriminate). cbn [rbind].
    eexists. split; [reflexivity|]. cbn.
    split; [|repeat split; try reflexivity; try discriminate].
    + split; [cbn; rewrite <- Hq, Hq; rewrite Eh; exact C|]. split; [exact N|]. exact Z.
    + intros c n0 _ Hc. exists n0. repeat split; assumption.
  - cbn [hd_error tl].
    assert (Hb : In b t /\ h <> b).
    { destruct pre as [|x pre]; cbn in Eh; injection Eh as -> <-.
      - split; [left; reflexivity|]. inversion N as [|? ? N1 N2]; subst. intros ->. apply N1. left. reflexivity.
      - split; [apply in_or_app; right; right; left; reflexivity|]. cbn in N. inversion N as [|? ? N1 N2]; subst. intros ->. apply N1.
        apply in_or_app; right; right; left; reflexivity. }
    destruct Hb as [Ib Nhb]. rewrite Hq. rewrite (ptr_eqb_neq (Some h) (Some b)) by congruence.
    assert (exists pre', t = pre' ++ b :: post /\ a = last pre' h) as (pre' & Et & Ea).
    { destruct pre as [|x pre]; cbn in Eh; injection Eh as -> <-; [exists []; split; reflexivity|].
      exists (pre ++ [a]). split; [rewrite <- app_assoc; reflexivity|]. symmetry. apply last_app_cons. }
    rewrite Hq, Eh in C. pose proof C as C0. inversion C as [|h' n l' Hh C']; subst h' l'. rewrite (proj2 (ld_ret _ _ _) Hh). cbn [rbind].
    rewrite Eh in N. pose proof (chain_len _ _ _ C N) as L. rewrite Et in L, N, C0. cbn in L. rewrite app_length in L. cbn in L.
    destruct (erase_loop_present (length (qmem q)) (qmem q) h pre' a b post C0 N ltac:(lia) Ea (nnext n) n Hh eq_refl)
      as (na & nb & m' & Ha & Hb & Er & Lm & G).
    rewrite Er. cbn [rbind]. eexists. split; [reflexivity|]. cbn.
    assert (Cq : chain m' (Some h) (pre ++ a :: post)).
    { apply (chain_skip (qmem q) m' (Some h) pre a b post na nb); [rewrite Eh, Et; exact C0|rewrite Eh, Et; exact N|exact Ha|exact Hb|exact G]. }
    split; [|split; [reflexivity|split; [reflexivity|split; [exact Lm|split; [|split]]]]].
    + split; [cbn; try rewrite Hq; exact Cq|]. split.
      * rewrite <- Et, <- Eh in N. clear -N.
        replace (pre ++ a :: post) with ((pre ++ [a]) ++ post) by (rewrite <- app_assoc; reflexivity).
        apply (NoDup_remove_1 _ _ b). rewrite <- app_assoc. exact N.
      * cbn. rewrite app_length in *. cbn in *. lia.
    + intros b' [= <-]. unfold freed. cbn. rewrite G, Nat.eqb_refl. reflexivity.
    + intros c nc Hc Hcc. unfold cell in *. cbn. rewrite G. destruct (Nat.eqb_spec c b); [congruence|].
      destruct (Nat.eqb_spec c a) as [->|]; [|exists nc; repeat split; assumption].
      rewrite Ha in Hcc. injection Hcc as <-. eexists. split; [reflexivity|]. cbn. repeat split; reflexivity.
    + intros c Hca Hcb. rewrite G. destruct (Nat.eqb_spec c b); [congruence|]. destruct (Nat.eqb_spec c a); [contradiction|reflexivity].
Qed.
