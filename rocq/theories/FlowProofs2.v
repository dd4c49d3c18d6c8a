(** The search under any interleaving: invariant, progress, bounds. *)
From Verif Require Import Prelude SortModel FlowModel FlowSpec.
Local Open Scope Z_scope.

Lemma upd_get' {A} (l : list A) k x l' : upd l k x = Some l' -> forall j d, nth j l' d = if (j =? k)%nat then x else nth j l d.
Proof.
  revert k l'. induction l as [|a l IH]; intros [|k] l' U j d; cbn in U; try discriminate.
  - inversion U; subst. destruct j; reflexivity.
  - destruct (upd l k x) as [l2|] eqn:E; [|discriminate]. inversion U; subst. destruct j; [reflexivity|]. cbn. apply IH. exact E.
Qed.
Lemma upd_forall {A} (P : A -> Prop) l k x l' : Forall P l -> P x -> upd l k x = Some l' -> Forall P l'.
Proof.
  revert k l'. induction l as [|a l IH]; intros [|k] l' F Px U; cbn in U; try discriminate; inversion F; subst.
  - inversion U; subst. constructor; auto.
  - destruct (upd l k x) as [l2|] eqn:E; [|discriminate]. inversion U; subst. constructor; eauto.
Qed.
Lemma upd_nth_cases {A} (l : list A) k x l' j y : upd l k x = Some l' -> nth_error l' j = Some y -> (j = k /\ y = x) \/ (j <> k /\ nth_error l j = Some y).
Proof.
  intros U E. destruct (Nat.eq_dec j k) as [->|Ne].
  - left. rewrite (upd_nth_eq _ _ _ _ U) in E. split; congruence.
  - right. rewrite (upd_nth_neq _ _ _ _ _ U) in E by auto. auto.
Qed.

Lemma nth_some {A} (l : list A) i x d : nth_error l i = Some x -> nth i l d = x.
Proof. intro H. apply nth_error_nth. exact H. Qed.
Lemma nth_lt_some {A} (l : list A) i d : (i < length l)%nat -> nth_error l i = Some (nth i l d).
Proof. revert i. induction l as [|a l IH]; intros [|i] H; cbn in *; try lia; auto. apply IH. lia. Qed.

Section S.
Variable m : csr.
Variable vals : list Z.
Variables source sink : nat.
Variable top : Z.
Notation n := (verts m).
Notation entry := (entry (ptrs m) (cols m)).
Hypothesis Hptrs : length (ptrs m) = S n.
Hypothesis Hptr : forall u a, nth_error (ptrs m) u = Some a -> (a <= length (cols m))%nat.
Hypothesis Hcol : forall u v j, entry u v j -> (v < n)%nat.
Hypothesis Hvals : length vals = length (cols m).
Hypothesis Hs : (source < n)%nat.
Hypothesis Htop : 0 < top.

Definition vis (b : bst) (v : nat) : bool := nth v (visited b) false.
Definition fro (b : bst) (v : nat) : bool := nth v (frontier b) false.
Definition par (b : bst) (v : nat) : Z := nth v (parents b) 0.
Definition pf (b : bst) (v : nat) : Z := nth v (pflow b) 0.
Definition lens (b : bst) : Prop := length (visited b) = n /\ length (frontier b) = n /\ length (parents b) = n /\ length (pflow b) = n.

Definition claims (th : thread) (v : nat) : Prop :=
  match snd th with Mark i | Parent i | Fetch i | Flow i _ => nth_error (cols m) i = Some v | _ => False end.
Definition fresh_v (b : bst) (v : nat) : Prop := v <> source /\ vis b v = true /\ pf b v = 0.
Definition claim (b : bst) (u i v : nat) : Prop := entry u v i /\ (exists x, nth_error vals i = Some x /\ 0 < x) /\ fresh_v b v.
Definition tok (b : bst) (th : thread) : Prop :=
  let u := fst th in (u < n)%nat /\
  match snd th with
  | Mark i | Parent i => exists v, claim b u i v
  | Fetch i => exists v, claim b u i v /\ par b v = Z.of_nat u
  | Flow i x => exists v, claim b u i v /\ par b v = Z.of_nat u /\ 0 <= x /\ (0 < x -> x = pf b u)
  | Sink i => exists v, entry u v i
  | Edge i => exists a, nth_error (ptrs m) u = Some a /\ (a <= i)%nat
  | _ => True
  end.
Definition tree (b : bst) (D : list nat) : Prop :=
  NoDup D /\ (forall v, In v D <-> (v < n)%nat /\ 0 < pf b v) /\
  forall k v, nth_error D k = Some v -> v = source \/
    exists k' p j x, (k' < k)%nat /\ nth_error D k' = Some p /\ par b v = Z.of_nat p /\ entry p v j /\ nth_error vals j = Some x /\ pf b v <= x /\ pf b v <= pf b p.
Definition lone (ths : list thread) : Prop :=
  forall k k' th th' v, nth_error ths k = Some th -> nth_error ths k' = Some th' -> claims th v -> claims th' v -> k = k'.
Definition inv (b : bst) (ths : list thread) : Prop :=
  lens b /\ (vis b source = true /\ par b source = -1 /\ pf b source = top) /\ (forall v, 0 <= pf b v) /\ (forall v, vis b v = false -> pf b v = 0) /\
  Forall (tok b) ths /\ lone ths /\ exists D, tree b D.

Lemma entry_col u v j v' : entry u v j -> nth_error (cols m) j = Some v' -> v' = v.
Proof. intros (a & e & _ & _ & _ & C) H. congruence. Qed.
Lemma claims_entry b th v : tok b th -> claims th v -> (exists i, claim b (fst th) i v) /\ fresh_v b v.
Proof.
  destruct th as [u p]. unfold tok, claims. cbn [fst snd]. intros (_ & T) C. destruct p; try contradiction; destruct T as (v' & T);
    [| |destruct T as [T _]|destruct T as [T _]]; pose proof T as (E & _ & F); rewrite (entry_col _ _ _ _ E C); eauto.
Qed.
Lemma lone_upd ths k th ths' th0 : lone ths -> nth_error ths k = Some th0 -> upd ths k th = Some ths' ->
  (forall v, claims th v -> claims th0 v \/ forall j th', nth_error ths j = Some th' -> ~ claims th' v) -> lone ths'.
Proof.
  intros L E0 U C a b ta tb v Ea Eb Ca Cb.
  apply (upd_nth_cases _ _ _ _ _ _ U) in Ea as [[-> ->]|[Na Ea]]; apply (upd_nth_cases _ _ _ _ _ _ U) in Eb as [[-> ->]|[Nb Eb]]; auto.
  - destruct (C v Ca) as [Q|Q]; [eapply L; eauto|exfalso; eapply Q; eauto].
  - destruct (C v Cb) as [Q|Q]; [eapply L; eauto|exfalso; eapply Q; eauto].
  - eapply L; eauto.
Qed.
(** the invariant speaks of visited, parents and potentialFlows only *)
Lemma inv_core b b' ths : visited b' = visited b -> parents b' = parents b -> pflow b' = pflow b -> length (frontier b') = length (frontier b) -> inv b ths -> inv b' ths.
Proof.
  intros E1 E2 E3 E4 (L & I). split; [unfold lens in *; rewrite E1, E2, E3, E4; exact L|].
  unfold inv, tok, tree, claim, fresh_v, vis, par, pf in *. rewrite E1, E2, E3. exact I.
Qed.
Lemma inv_thread b ths k th0 th ths' : inv b ths -> nth_error ths k = Some th0 -> upd ths k th = Some ths' -> tok b th ->
  (forall v, claims th v -> claims th0 v) -> inv b ths'.
Proof.
  intros (L & So & P & V & T & Lo & D) E U Tk C. split; [auto|]. split; [auto|]. split; [auto|]. split; [auto|].
  split; [eapply upd_forall; eauto|]. split; [|exact D]. eapply lone_upd; eauto.
Qed.
Lemma tok_vis b b' th : (forall v, vis b v = true -> vis b' v = true) -> (forall v, par b' v = par b v) -> (forall v, pf b' v = pf b v) -> tok b th -> tok b' th.
Proof.
  intros Hv Hp Hf. destruct th as [u p]. unfold tok, claim, fresh_v. cbn [fst snd]. intros (Lu & T). split; [exact Lu|].
  destruct p; auto; destruct T as (v & T); exists v; rewrite ?Hp, ?Hf; intuition auto.
Qed.
Lemma inv_step b ths k v p b' p' ths' : inv b ths -> nth_error ths k = Some (v, p) -> kstep m vals sink b v p = Some (b', p') -> upd ths k (v, p') = Some ths' -> inv b' ths'.
Proof.
  intros I E K U. pose proof I as (L & (So & Ps & Fs) & Nn & V & T & Lo & D & Td). pose proof L as (L1 & L2 & L3 & L4).
  assert (Tk : tok b (v, p)) by (rewrite Forall_forall in T; apply T; eapply nth_error_In; eauto). pose proof Tk as (Lv & Tp). cbn [fst snd] in *.
  assert (Simple : forall b2 th, visited b2 = visited b -> parents b2 = parents b -> pflow b2 = pflow b -> length (frontier b2) = length (frontier b) -> tok b th ->
    (forall w, claims th w -> claims (v, p) w) -> upd ths k th = Some ths' -> inv b2 ths').
  { intros b2 th A1 A2 A3 A4 Tt Ct Ut. apply (inv_core b b2); auto. eapply inv_thread; eauto. }
  assert (Same : forall w, fresh_v b w -> forall j th', nth_error ths j = Some th' -> claims (v, p) w -> claims th' w -> j = k) by (intros w _ j th' Ej Cp Cj; eapply Lo; eauto).
  destruct p as [| |i|i|i|i|i x|i|]; cbn [kstep] in K.
  - destruct (nth_error (frontier b) v) as [[|]|]; cbn [bind] in K; inversion K; subst; (refine (Simple _ _ _ _ _ _ _ _ U); eauto; try (intros ? []; fail); try (split; cbn; auto; fail)).
  - destruct (upd (frontier b) v false) as [fr|] eqn:Uf; [|discriminate]. cbn [bind] in K. destruct (nth_error (ptrs m) v) as [a|] eqn:Ea; [|discriminate]. inversion K; subst.
    pose proof (upd_length _ _ _ _ Uf). refine (Simple _ _ _ _ _ _ _ _ U); cbn; eauto; try (intros ? []; fail); try (split; cbn; eauto; fail).
  - destruct Tp as (a & Ea & La). destruct (nth_error (ptrs m) (S v)) as [e|] eqn:Ee; [|discriminate]. cbn [bind] in K.
    destruct (Nat.ltb_spec i e) as [Li|Li]; [|inversion K; subst; refine (Simple _ _ _ _ _ _ _ _ U); eauto; try (intros ? []; fail); try (split; cbn; auto; fail)].
    destruct (nth_error (cols m) i) as [nv|] eqn:Ec; [|discriminate]. cbn [bind] in K. destruct (nth_error vals i) as [c|] eqn:Ex; [|discriminate]. cbn [bind] in K.
    destruct (Z.leb_spec c 0) as [Lc|Lc]; [inversion K; subst; refine (Simple _ _ _ _ _ _ _ _ U); eauto; try (intros ? []; fail); try (split; cbn; auto; exists a; auto; fail)|].
    destruct (nth_error (visited b) nv) as [[|]|] eqn:Ev; cbn [bind] in K; [inversion K; subst; refine (Simple _ _ _ _ _ _ _ _ U); eauto; try (intros ? []; fail); try (split; cbn; auto; exists a; auto; fail)| |discriminate].
    destruct (upd (visited b) nv true) as [vi|] eqn:Uv; [|discriminate]. cbn [bind] in K. inversion K; subst.
    assert (Vn : vis b nv = false) by (apply nth_some; auto).
    assert (Nv : forall w, vis (set_visited b vi) w = if (w =? nv)%nat then true else vis b w) by (intro w; apply (upd_get' _ _ _ _ Uv)).
    assert (Mo : forall w, vis b w = true -> vis (set_visited b vi) w = true) by (intros w W; rewrite Nv, W; destruct (w =? nv)%nat; auto).
    split; [unfold lens; cbn; rewrite (upd_length _ _ _ _ Uv); auto|]. split; [split; [apply Mo; auto|split; auto]|]. split; [exact Nn|].
    split; [intros w W; rewrite Nv in W; destruct (w =? nv)%nat; [discriminate|apply V; auto]|]. split.
    { eapply upd_forall; [| |exact U].
      - eapply Forall_impl; [|exact T]. intros th. apply tok_vis; auto.
      - split; [exact Lv|]. cbn [fst snd]. exists nv. split; [exists a, e; auto|]. split; [exists c; auto|]. split; [intros ->; congruence|]. split; [rewrite Nv, Nat.eqb_refl; auto|exact (V nv Vn)]. }
    split; [|exists D; exact Td]. eapply lone_upd; eauto. intros w Cw. right. intros j th' Ej Cj. assert (w = nv) by (unfold claims in Cw; cbn in Cw; congruence). subst w.
    rewrite Forall_forall in T. destruct (claims_entry b th' nv (T th' (nth_error_In _ _ Ej)) Cj) as (_ & _ & F & _). congruence.
  - destruct (nth_error (cols m) i) as [nv|] eqn:Ec; [|discriminate]. cbn [bind] in K. destruct (upd (frontier b) nv true) as [fr|] eqn:Uf; [|discriminate]. cbn [bind] in K. inversion K; subst.
    pose proof (upd_length _ _ _ _ Uf). refine (Simple _ _ _ _ _ _ _ _ U); cbn; eauto.
  - destruct (nth_error (cols m) i) as [nv|] eqn:Ec; [|discriminate]. cbn [bind] in K. destruct (upd (parents b) nv (Z.of_nat v)) as [ps|] eqn:Up; [|discriminate]. cbn [bind] in K. inversion K; subst.
    destruct Tp as (w & C). pose proof C as (En & Px & Fr). pose proof (entry_col _ _ _ _ En Ec) as ->. pose proof Fr as (Nws & Vw & Pw).
    assert (Np : forall y, par (set_parents b ps) y = if (y =? w)%nat then Z.of_nat v else par b y) by (intro y; apply (upd_get' _ _ _ _ Up)).
    split; [unfold lens; cbn; rewrite (upd_length _ _ _ _ Up); auto|]. split; [split; auto; split; auto; rewrite Np; destruct (Nat.eqb_spec source w); [congruence|auto]|].
    split; [exact Nn|]. split; [exact V|]. split.
    { apply Forall_forall. intros th Ith. apply In_nth_error in Ith as [j Ej]. apply (upd_nth_cases _ _ _ _ _ _ U) in Ej as [[-> ->]|[Nj Ej]].
      - split; [exact Lv|]. cbn [fst snd]. exists w. split; [exact C|]. rewrite Np, Nat.eqb_refl. reflexivity.
      - assert (Tj : tok b th) by (rewrite Forall_forall in T; apply T; eapply nth_error_In; eauto).
        assert (Nc : ~ claims th w) by (intro Cj; apply Nj; eapply Same; eauto). destruct th as [u q]. destruct Tj as (Lu & Tq). split; [exact Lu|]. cbn [fst snd] in *.
        destruct q; auto; destruct Tq as (y & Tq); exists y; destruct Tq as (Cy & Tq); (split; [exact Cy|]); rewrite Np; (destruct (Nat.eqb_spec y w) as [->|]; [exfalso; apply Nc; destruct Cy as ((? & ? & _ & _ & _ & Cc) & _); exact Cc|exact Tq]). }
    split; [eapply lone_upd; eauto|]. exists D. destruct Td as (N1 & N2 & N3). split; [exact N1|]. split; [exact N2|]. intros q y Ey. destruct (N3 q y Ey) as [Q|(k' & p & j & x & Q1 & Q2 & Q3 & Q4)]; [auto|]. right.
    exists k', p, j, x. split; [auto|]. split; [auto|]. split; [|exact Q4]. rewrite Np. destruct (Nat.eqb_spec y w) as [->|]; [|exact Q3]. apply nth_error_In in Ey. apply N2 in Ey. lia.
  - destruct (nth_error (pflow b) v) as [x|] eqn:Ex; [|discriminate]. cbn [bind] in K. inversion K; subst. refine (Simple _ _ _ _ _ _ _ _ U); eauto. split; cbn; auto.
    destruct Tp as (w & C & P). exists w. split; [exact C|]. split; [exact P|]. pose proof (Nn v) as N. unfold pf in *. rewrite (nth_some _ _ _ 0 Ex) in *. auto.
  - destruct (nth_error (cols m) i) as [nv|] eqn:Ec; [|discriminate]. cbn [bind] in K. destruct (nth_error vals i) as [c|] eqn:Ex; [|discriminate]. cbn [bind] in K.
    destruct (upd (pflow b) nv (if c <? x then c else x)) as [fl|] eqn:Uf; [|discriminate]. cbn [bind] in K. inversion K; subst.
    destruct Tp as (w & C & Pr & Px & Pe). pose proof C as (En & (c' & Ec' & Pc) & Fr). assert (c' = c) by congruence. subst c'. pose proof (entry_col _ _ _ _ En Ec) as ->. pose proof Fr as (Nws & Vw & Pw).
    assert (Lw : (w < n)%nat) by (eapply Hcol; eauto).
    set (y := if c <? x then c else x) in *. assert (Hy : 0 <= y <= c /\ y <= x /\ (0 < x -> 0 < y)) by (unfold y; destruct (Z.ltb_spec c x); lia).
    assert (Nf : forall z, pf (set_pflow b fl) z = if (z =? w)%nat then y else pf b z) by (intro z; apply (upd_get' _ _ _ _ Uf)).
    split; [unfold lens; cbn; rewrite (upd_length _ _ _ _ Uf); auto|]. split; [split; auto; split; auto; rewrite Nf; destruct (Nat.eqb_spec source w); [congruence|auto]|].
    split; [intro z; rewrite Nf; specialize (Nn z); destruct (z =? w)%nat; lia|].
    split; [intros z Vz; rewrite Nf; destruct (Nat.eqb_spec z w) as [->|]; [unfold vis in *; cbn in Vz; congruence|apply V; exact Vz]|]. split.
    { apply Forall_forall. intros th Ith. apply In_nth_error in Ith as [j Ej]. apply (upd_nth_cases _ _ _ _ _ _ U) in Ej as [[-> ->]|[Nj Ej]]; [split; cbn; eauto|].
      assert (Tj : tok b th) by (rewrite Forall_forall in T; apply T; eapply nth_error_In; eauto).
      assert (Nc : ~ claims th w) by (intro Cj; apply Nj; eapply Same; eauto). destruct th as [u q]. destruct Tj as (Lu & Tq). split; [exact Lu|]. cbn [fst snd] in *.
      assert (Cl : forall i0 z, claim b u i0 z -> ~ nth_error (cols m) i0 = Some w -> claim (set_pflow b fl) u i0 z).
      { intros i0 z (Q1 & Q2 & Q3 & Q4 & Q5) Q. split; [exact Q1|]. split; [exact Q2|]. split; [exact Q3|]. split; [exact Q4|]. rewrite Nf. destruct (Nat.eqb_spec z w) as [->|]; [|exact Q5].
        exfalso. apply Q. destruct Q1 as (? & ? & _ & _ & _ & Cc). exact Cc. }
      destruct q; auto; destruct Tq as (z & Tq); exists z.
      - apply Cl; auto.
      - apply Cl; auto.
      - destruct Tq as (Q1 & Q2). split; [apply Cl; auto|exact Q2].
      - destruct Tq as (Q1 & Q2 & Q3 & Q4). split; [apply Cl; auto|]. split; [exact Q2|]. split; [exact Q3|]. intro Pz. rewrite Nf. destruct (Nat.eqb_spec u w) as [->|]; [specialize (Q4 Pz); lia|auto]. }
    split; [eapply lone_upd; eauto; intros z []|]. destruct Td as (N1 & N2 & N3). destruct (Z.eq_dec y 0) as [Ey|Ey].
    + exists D. assert (Sf : forall z, pf (set_pflow b fl) z = pf b z) by (intro z; rewrite Nf; destruct (Nat.eqb_spec z w) as [->|]; [lia|auto]).
      split; [exact N1|]. split; [intro z; rewrite Sf; apply N2|]. intros q z Ez. destruct (N3 q z Ez) as [Q|(k' & p & j & x0 & Q1 & Q2 & Q3 & Q4 & Q5 & Q6)]; [auto|]. right. exists k', p, j, x0. rewrite !Sf. auto 10.
    + assert (Xp : 0 < x) by lia. pose proof (Pe Xp) as Ex'. exists (D ++ [w]). assert (NwD : ~ In w D) by (rewrite N2; lia). split; [|split].
      * apply Permutation_NoDup with (w :: D); [apply Permutation_cons_append|constructor; auto].
      * intro z. rewrite in_app_iff, N2, Nf. cbn. destruct (Nat.eqb_spec z w) as [->|]; split; try lia; intuition.
      * intros q z Ez. destruct (Nat.lt_ge_cases q (length D)) as [Lq|Lq].
        -- rewrite nth_error_app1 in Ez by auto. destruct (N3 q z Ez) as [Q|(k' & p & j & x0 & Q1 & Q2 & Q3 & Q4 & Q5 & Q6)]; [auto|]. right. exists k', p, j, x0.
           assert (Hz : z <> w) by (intros ->; apply NwD; eapply nth_error_In; eauto). assert (Hp : p <> w) by (intros ->; apply NwD; eapply nth_error_In; eauto).
           split; [auto|]. split; [rewrite nth_error_app1; auto; lia|]. rewrite !Nf. destruct (Nat.eqb_spec z w); [contradiction|]. destruct (Nat.eqb_spec p w); [contradiction|]. auto.
        -- assert (q = length D). { pose proof (nth_error_some_lt _ _ _ Ez) as Q. rewrite app_length in Q. cbn in Q. lia. } subst q. rewrite nth_error_app2, Nat.sub_diag in Ez by auto. cbn in Ez. inversion Ez; subst z. right.
           assert (Iv : In v D) by (apply N2; split; [auto|lia]). apply In_nth_error in Iv as [kv Ekv]. exists kv, v, i, c. pose proof (nth_error_some_lt _ _ _ Ekv).
           split; [auto|]. split; [rewrite nth_error_app1; auto|]. split; [exact Pr|]. split; [exact En|]. split; [auto|]. rewrite !Nf, Nat.eqb_refl. assert (v <> w) by (intros ->; lia).
           destruct (Nat.eqb_spec v w); [contradiction|]. lia.
  - destruct Tp as (w & a & e & Ea & _ & La & _). destruct (nth_error (cols m) i) as [nv|] eqn:Ec; [|discriminate]. cbn [bind] in K.
    destruct (nv =? sink)%nat; inversion K; subst; (refine (Simple _ _ _ _ _ _ _ _ U); cbn; eauto; try (intros ? []; fail); try (split; cbn; auto; exists a; split; [auto|lia]; fail)).
  - inversion K; subst. refine (Simple _ _ _ _ _ _ _ _ U); eauto.
Qed.

Lemma inv_steps k b ths b' ths' : inv b ths -> steps m vals sink k (b, ths) (b', ths') -> inv b' ths'.
Proof.
  intros I St. remember (b, ths) as s0. remember (b', ths') as s1. revert b ths b' ths' Heqs0 Heqs1 I.
  induction St as [s|j b1 ths1 k1 v p b2 p' ths2 s E Np K U St IH]; intros b ths b' ths' E0 E1 I.
  - subst. inversion E1; subst. exact I.
  - inversion E0; subst. eapply (IH b2 ths2); eauto. eapply inv_step; eauto.
Qed.
(** an unfinished invocation can always take its next step *)
Lemma progress b ths k v p : inv b ths -> nth_error ths k = Some (v, p) -> exists b' p', kstep m vals sink b v p = Some (b', p').
Proof.
  intros (L & _ & _ & _ & T & _) E. destruct L as (L1 & L2 & L3 & L4). rewrite Forall_forall in T. destruct (T _ (nth_error_In _ _ E)) as (Lv & Tp). cbn [fst snd] in *.
  assert (Px : exists a e, nth_error (ptrs m) v = Some a /\ nth_error (ptrs m) (S v) = Some e).
  { destruct (nth_error_lt_some (ptrs m) v) as [a A]; [lia|]. destruct (nth_error_lt_some (ptrs m) (S v)) as [e A']; [lia|]. eauto. }
  destruct Px as (a & e & Ea & Ee).
  assert (In_e : forall i, (exists w, entry v w i) -> exists w c, nth_error (cols m) i = Some w /\ (w < n)%nat /\ nth_error vals i = Some c).
  { intros i (w & En). pose proof (Hcol _ _ _ En) as Lw. destruct En as (a' & e' & A1 & A2 & A3 & A4). pose proof (nth_error_some_lt _ _ _ A4) as Li.
    destruct (nth_error_lt_some vals i) as [c C]; [lia|]. eauto 6. }
  destruct p as [| |i|i|i|i|i x|i|]; cbn [kstep].
  - destruct (nth_error_lt_some (frontier b) v) as [f F]; [lia|]. rewrite F. cbn [bind]. destruct f; eauto.
  - destruct (upd_some (frontier b) v false) as [fr F]; [lia|]. rewrite F. cbn [bind]. rewrite Ea. cbn [bind]. eauto.
  - rewrite Ee. cbn [bind]. destruct (Nat.ltb_spec i e) as [Li|Li]; [|eauto]. pose proof (Hptr _ _ Ee) as Le. destruct Tp as (a' & Ea' & La).
    destruct (nth_error_lt_some (cols m) i) as [w Ew]; [lia|]. destruct (In_e i) as (w' & c & E1 & E2 & E3); [exists w, a', e; auto|]. rewrite E1. cbn [bind]. rewrite E3. cbn [bind].
    destruct (c <=? 0); [eauto|]. destruct (nth_error_lt_some (visited b) w') as [f F]; [lia|]. rewrite F. cbn [bind]. destruct f; [eauto|]. destruct (upd_some (visited b) w' true) as [vi Vi]; [lia|]. rewrite Vi. cbn [bind]. eauto.
  - destruct Tp as (w & C & _). destruct (In_e i ltac:(eauto)) as (w' & c & E1 & E2 & E3). rewrite E1. cbn [bind]. destruct (upd_some (frontier b) w' true) as [l U]; [lia|]. rewrite U. cbn [bind]. eauto.
  - destruct Tp as (w & C & _). destruct (In_e i ltac:(eauto)) as (w' & c & E1 & E2 & E3). rewrite E1. cbn [bind]. destruct (upd_some (parents b) w' (Z.of_nat v)) as [l U]; [lia|]. rewrite U. cbn [bind]. eauto.
  - destruct (nth_error_lt_some (pflow b) v) as [f F]; [lia|]. rewrite F. cbn [bind]. eauto.
  - destruct Tp as (w & (C & _) & _). destruct (In_e i ltac:(eauto)) as (w' & c & E1 & E2 & E3). rewrite E1. cbn [bind]. rewrite E3. cbn [bind].
    destruct (upd_some (pflow b) w' (if c <? x then c else x)) as [l U]; [lia|]. rewrite U. cbn [bind]. eauto.
  - destruct (In_e i Tp) as (w' & c & E1 & E2 & E3). rewrite E1. cbn [bind]. eauto.
  - eauto.
Qed.

(** bound on the steps of an invocation *)
Definition meas (th : thread) : nat :=
  let e := nth (S (fst th)) (ptrs m) O in
  match snd th with
  | Enter => 6 * (e - nth (fst th) (ptrs m) O) + 3
  | Clear => 6 * (e - nth (fst th) (ptrs m) O) + 2
  | Edge i => 6 * (e - i) + 1
  | Mark i => 6 * (e - i)
  | Parent i => 6 * (e - i) - 1
  | Fetch i => 6 * (e - i) - 2
  | Flow i _ => 6 * (e - i) - 3
  | Sink i => 6 * (e - i) - 4
  | Done => 0
  end.
Lemma meas_step b v p b' p' : tok b (v, p) -> p <> Done -> kstep m vals sink b v p = Some (b', p') -> (meas (v, p') < meas (v, p))%nat.
Proof.
  intros (Lv & Tp) Nd K. cbn [fst snd] in *.
  assert (Ie : forall i, (exists w, entry v w i) -> (i < nth (S v) (ptrs m) O)%nat) by (intros i (w & a & e & _ & Ee & L & _); rewrite (nth_some _ _ _ O Ee); lia).
  destruct p as [| |i|i|i|i|i x|i|]; cbn [kstep] in K; unfold meas; cbn [fst snd]; try contradiction.
  - destruct (nth_error (frontier b) v) as [[|]|]; cbn [bind] in K; inversion K; subst; lia.
  - destruct (upd (frontier b) v false) as [fr|]; [|discriminate]. cbn [bind] in K. destruct (nth_error (ptrs m) v) as [a|] eqn:Ea; [|discriminate]. cbn [bind] in K. inversion K; subst. rewrite (nth_some _ _ _ O Ea). lia.
  - destruct (nth_error (ptrs m) (S v)) as [e|] eqn:Ee; [|discriminate]. cbn [bind] in K. rewrite (nth_some _ _ _ O Ee). destruct (Nat.ltb_spec i e) as [Li|Li]; [|inversion K; subst; lia].
    destruct (nth_error (cols m) i) as [w|]; [|discriminate]. cbn [bind] in K. destruct (nth_error vals i) as [c|]; [|discriminate]. cbn [bind] in K. destruct (c <=? 0); [inversion K; subst; lia|].
    destruct (nth_error (visited b) w) as [[|]|]; cbn [bind] in K; [inversion K; subst; lia| |discriminate]. destruct (upd (visited b) w true); [|discriminate]. cbn [bind] in K. inversion K; subst; lia.
  - destruct Tp as (w & C & _). pose proof (Ie i ltac:(eauto)). destruct (nth_error (cols m) i) as [y|]; [|discriminate]. cbn [bind] in K. destruct (upd _ _ _); [|discriminate]. cbn [bind] in K. inversion K; subst; lia.
  - destruct Tp as (w & C & _). pose proof (Ie i ltac:(eauto)). destruct (nth_error (cols m) i) as [y|]; [|discriminate]. cbn [bind] in K. destruct (upd _ _ _); [|discriminate]. cbn [bind] in K. inversion K; subst; lia.
  - destruct Tp as (w & (C & _) & _). pose proof (Ie i ltac:(eauto)). destruct (nth_error (pflow b) v) as [y|]; [|discriminate]. cbn [bind] in K. inversion K; subst; lia.
  - destruct Tp as (w & (C & _) & _). pose proof (Ie i ltac:(eauto)). destruct (nth_error (cols m) i) as [y|]; [|discriminate]. cbn [bind] in K. destruct (nth_error vals i) as [c|]; [|discriminate]. cbn [bind] in K.
    destruct (upd _ _ _); [|discriminate]. cbn [bind] in K. inversion K; subst; lia.
  - pose proof (Ie i Tp). destruct (nth_error (cols m) i) as [y|]; [|discriminate]. cbn [bind] in K. inversion K; subst; lia.
Qed.
Fixpoint total (ths : list thread) : nat := match ths with [] => O | th :: r => (meas th + total r)%nat end.
Lemma total_upd ths k th th' ths' : nth_error ths k = Some th -> upd ths k th' = Some ths' -> (total ths' + meas th = total ths + meas th')%nat.
Proof.
  revert k ths'. induction ths as [|a ths IH]; intros [|k] ths' E U; cbn [nth_error upd] in *; try discriminate.
  - inversion E; inversion U; subst. cbn [total]. lia.
  - destruct (upd ths k th') as [l|] eqn:Eu; [|discriminate]. inversion U; subst. cbn [total]. specialize (IH k l E Eu). lia.
Qed.
Lemma steps_bound k b ths b' ths' : inv b ths -> steps m vals sink k (b, ths) (b', ths') -> (k + total ths' <= total ths)%nat.
Proof.
  intros I St. remember (b, ths) as s0. remember (b', ths') as s1. revert b ths b' ths' Heqs0 Heqs1 I.
  induction St as [s|j b1 ths1 k1 v p b2 p' ths2 s E Np K U St IH]; intros b ths b' ths' E0 E1 I.
  - subst. inversion E1; subst. lia.
  - inversion E0; subst. pose proof (inv_step _ _ _ _ _ _ _ _ I E K U) as I2. specialize (IH b2 ths2 b' ths' eq_refl eq_refl I2).
    assert (Tk : tok b (v, p)) by (destruct I as (_ & _ & _ & _ & T & _); rewrite Forall_forall in T; apply T; eapply nth_error_In; eauto).
    pose proof (meas_step _ _ _ _ _ Tk Np K). pose proof (total_upd _ _ _ _ _ E U). lia.
Qed.

(** executions in which invocations do not overlap are executions *)
Lemma steps_trans a b s1 s2 s3 : steps m vals sink a s1 s2 -> steps m vals sink b s2 s3 -> steps m vals sink (a + b) s1 s3.
Proof. intro St. revert s3. induction St; intros s3 Hx; cbn; [exact Hx|]. econstructor; eauto. Qed.
Lemma alone_steps b v p b' : alone m vals sink b v p b' -> forall ths k, nth_error ths k = Some (v, p) -> exists j ths', steps m vals sink j (b, ths) (b', ths') /\ upd ths k (v, Done) = Some ths'.
Proof.
  induction 1 as [b v|b v p b1 p1 b2 Np K A IH]; intros ths k E.
  - exists O, ths. split; [constructor|]. clear - E. revert k E. induction ths as [|a ths IH]; intros [|k] E; cbn in *; try discriminate; [inversion E; reflexivity|]. rewrite (IH k E). reflexivity.
  - destruct (upd_some ths k (v, p1)) as [ths1 U]; [eapply nth_error_some_lt; eauto|]. destruct (IH ths1 k (upd_nth_eq _ _ _ _ U)) as (j & ths2 & St & U2).
    exists (S j), ths2. split; [econstructor; eauto|]. rewrite <- U2. clear - U. revert k ths1 U. induction ths as [|a ths IH]; intros [|k] ths1 U; cbn in *; try discriminate.
    + inversion U; subst. reflexivity.
    + destruct (upd ths k (v, p1)) as [l|] eqn:Eu; [|discriminate]. inversion U; subst. cbn. rewrite (IH k l Eu). reflexivity.
Qed.
Definition pending (l : list nat) (ths : list thread) : Prop :=
  length ths = n /\ forall v, (v < n)%nat -> nth_error ths v = Some (v, if in_dec Nat.eq_dec v l then Enter else Done).
Lemma enter_pending : pending (seq 0 n) (enter m).
Proof.
  unfold pending, enter. split; [rewrite map_length, seq_length; auto|]. intros v Lv. destruct (in_dec Nat.eq_dec v (seq 0 n)) as [I|I]; [|exfalso; apply I; apply in_seq; lia].
  apply (map_nth_error (fun v => (v, Enter)) v (seq 0 n) (d := v)). rewrite (nth_lt_some (seq 0 n) v O) by (rewrite seq_length; auto). rewrite seq_nth by auto. reflexivity.
Qed.
Lemma pending_perm l l' ths : Permutation l l' -> pending l ths -> pending l' ths.
Proof.
  intros P (L & H). split; [auto|]. intros v Lv. rewrite (H v Lv). destruct (in_dec Nat.eq_dec v l) as [A|A], (in_dec Nat.eq_dec v l') as [B|B]; auto; exfalso; [apply B|apply A];
    [apply (Permutation_in _ P)|apply (Permutation_in _ (Permutation_sym P))]; auto.
Qed.
Lemma pending_cons v l ths ths' : NoDup (v :: l) -> (v < n)%nat -> pending (v :: l) ths -> upd ths v (v, Done) = Some ths' -> nth_error ths v = Some (v, Enter) /\ pending l ths'.
Proof.
  intros N Lv (L & H) U. inversion N as [|? ? N1 N2]; subst. split; [rewrite (H v Lv); destruct (in_dec _ v (v :: l)) as [|Q]; [reflexivity|exfalso; apply Q; left; auto]|].
  split; [rewrite (upd_length _ _ _ _ U); auto|]. intros w Lw. destruct (Nat.eq_dec w v) as [->|Nw].
  - rewrite (upd_nth_eq _ _ _ _ U). destruct (in_dec _ v l); [contradiction|reflexivity].
  - rewrite (upd_nth_neq _ _ _ _ _ U) by auto. rewrite (H w Lw). destruct (in_dec _ w (v :: l)) as [A|A], (in_dec _ w l) as [B|B]; auto; exfalso; [destruct A; [congruence|auto]|apply A; right; auto].
Qed.
Lemma in_turn_steps l b b' : in_turn m vals sink l b b' -> NoDup l -> (forall v, In v l -> (v < n)%nat) -> forall ths, pending l ths ->
  exists j ths', steps m vals sink j (b, ths) (b', ths') /\ all_done ths'.
Proof.
  induction 1 as [b|v l b b1 b2 A T IH]; intros N Hl ths P.
  - exists O, ths. split; [constructor|]. apply Forall_forall. intros th I. apply In_nth_error in I as [k E]. destruct P as (L & P). pose proof (nth_error_some_lt _ _ _ E) as Lk. rewrite P in E by lia. inversion E. reflexivity.
  - assert (Lv : (v < n)%nat) by (apply Hl; left; auto). destruct (upd_some ths v (v, Done)) as [ths1 U]; [destruct P; lia|]. destruct (pending_cons _ _ _ _ N Lv P U) as (E & P1).
    destruct (alone_steps _ _ _ _ A ths v E) as (j & ths2 & St & U2). rewrite U in U2. inversion U2; subst ths2. inversion N; subst.
    destruct (IH ltac:(auto) ltac:(intros; apply Hl; right; auto) ths1 P1) as (j2 & ths3 & St2 & Dn). exists (j + j2)%nat, ths3. split; [eapply steps_trans; eauto|exact Dn].
Qed.
Lemma apart_any b b' : launch_apart m vals sink b b' -> launch_any m vals sink b b'.
Proof.
  intros (order & P & T). assert (N : NoDup order) by (apply (Permutation_NoDup (Permutation_sym P)); apply seq_NoDup).
  destruct (in_turn_steps _ _ _ T N) with (ths := enter m) as (j & ths & St & Dn); [intros v Iv; apply (Permutation_in _ P) in Iv; apply in_seq in Iv; lia|eapply pending_perm; [apply Permutation_sym; exact P|apply enter_pending]|].
  exists j, ths. auto.
Qed.

(** how often the search can be launched *)
Fixpoint wsum {A} (f : A -> nat) (l : list A) : nat := match l with [] => O | x :: r => (f x + wsum f r)%nat end.
Lemma wsum_upd {A} (f : A -> nat) l k x x' l' : nth_error l k = Some x -> upd l k x' = Some l' -> (wsum f l' + f x = wsum f l + f x')%nat.
Proof.
  revert k l'. induction l as [|a l IH]; intros [|k] l' E U; cbn [nth_error upd] in *; try discriminate.
  - inversion E; inversion U; subst. cbn [wsum]. lia.
  - destruct (upd l k x') as [l2|] eqn:Eu; [|discriminate]. inversion U; subst. cbn [wsum]. specialize (IH k l2 E Eu). lia.
Qed.
Definition b2n (b : bool) : nat := if b then 1%nat else O.
Definition marking (th : thread) : nat := match snd th with Mark _ => 1%nat | _ => O end.
Definition phi (b : bst) (ths : list thread) : nat := (2 * wsum (fun x => b2n (negb x)) (visited b) + wsum b2n (frontier b) + wsum marking ths)%nat.
Lemma upd_some_nth {A} (l : list A) k x l' : upd l k x = Some l' -> exists y, nth_error l k = Some y.
Proof. intro U. apply nth_error_lt_some. eapply upd_range; eauto. Qed.
Lemma phi_step b ths k v p b' p' ths' : nth_error ths k = Some (v, p) -> kstep m vals sink b v p = Some (b', p') -> upd ths k (v, p') = Some ths' ->
  (phi b' ths' <= phi b ths)%nat /\ (p = Clear -> fro b v = true -> (phi b' ths' < phi b ths)%nat).
Proof.
  intros E K U. pose proof (wsum_upd marking _ _ _ _ _ E U) as W. unfold phi, marking in *. cbn [snd] in W.
  destruct p as [| |i|i|i|i|i x|i|]; cbn [kstep] in K.
  - destruct (nth_error (frontier b) v) as [[|]|]; cbn [bind] in K; inversion K; subst; split; try discriminate; cbn in *; lia.
  - destruct (upd (frontier b) v false) as [fr|] eqn:Uf; [|discriminate]. cbn [bind] in K. destruct (nth_error (ptrs m) v) as [a|]; [|discriminate]. cbn [bind] in K. inversion K; subst.
    destruct (upd_some_nth _ _ _ _ Uf) as [y Ey]. pose proof (wsum_upd b2n _ _ _ _ _ Ey Uf) as W2. unfold fro. rewrite (nth_some _ _ _ false Ey). cbn [visited frontier set_frontier] in *.
    change (b2n false) with O in W2. destruct y; [change (b2n true) with 1%nat in W2|change (b2n false) with O in W2]; split; try lia; intros _ X; try discriminate; lia.
  - destruct (nth_error (ptrs m) (S v)) as [e|]; [|discriminate]. cbn [bind] in K. destruct (i <? e)%nat; [|inversion K; subst; split; try discriminate; cbn in *; lia].
    destruct (nth_error (cols m) i) as [w|]; [|discriminate]. cbn [bind] in K. destruct (nth_error vals i) as [c|]; [|discriminate]. cbn [bind] in K. destruct (c <=? 0); [inversion K; subst; split; try discriminate; cbn in *; lia|].
    destruct (nth_error (visited b) w) as [[|]|] eqn:Ew; cbn [bind] in K; [inversion K; subst; split; try discriminate; cbn in *; lia| |discriminate].
    destruct (upd (visited b) w true) as [vi|] eqn:Uv; [|discriminate]. cbn [bind] in K. inversion K; subst.
    pose proof (wsum_upd (fun x => b2n (negb x)) _ _ _ _ _ Ew Uv) as W2. cbn [negb b2n] in W2. cbn [visited frontier set_visited]. split; try discriminate. lia.
  - destruct (nth_error (cols m) i) as [w|]; [|discriminate]. cbn [bind] in K. destruct (upd (frontier b) w true) as [fr|] eqn:Uf; [|discriminate]. cbn [bind] in K. inversion K; subst.
    destruct (upd_some_nth _ _ _ _ Uf) as [y Ey]. pose proof (wsum_upd b2n _ _ _ _ _ Ey Uf) as W2. change (b2n true) with 1%nat in W2. cbn [visited frontier set_frontier]. split; try discriminate. lia.
  - destruct (nth_error (cols m) i) as [w|]; [|discriminate]. cbn [bind] in K. destruct (upd _ _ _); [|discriminate]. cbn [bind] in K. inversion K; subst. split; try discriminate; cbn in *; lia.
  - destruct (nth_error (pflow b) v) as [w|]; [|discriminate]. cbn [bind] in K. inversion K; subst. split; try discriminate; cbn in *; lia.
  - destruct (nth_error (cols m) i) as [w|]; [|discriminate]. cbn [bind] in K. destruct (nth_error vals i) as [c|]; [|discriminate]. cbn [bind] in K. destruct (upd _ _ _); [|discriminate]. cbn [bind] in K. inversion K; subst. split; try discriminate; cbn in *; lia.
  - destruct (nth_error (cols m) i) as [w|]; [|discriminate]. cbn [bind] in K. inversion K; subst. destruct (w =? sink)%nat; split; try discriminate; cbn in *; lia.
  - inversion K; subst. split; try discriminate; cbn in *; lia.
Qed.
Definition own_place (ths : list thread) : Prop := forall k th, nth_error ths k = Some th -> fst th = k.
Lemma fro_step b v p b' p' : kstep m vals sink b v p = Some (b', p') -> forall u, u <> v \/ p <> Clear -> fro b u = true -> fro b' u = true.
Proof.
  intros K u Hu F. unfold fro in *. destruct p as [| |i|i|i|i|i x|i|]; cbn [kstep] in K.
  - destruct (nth_error (frontier b) v) as [[|]|]; cbn [bind] in K; inversion K; subst; auto.
  - destruct (upd (frontier b) v false) as [fr|] eqn:Uf; [|discriminate]. cbn [bind] in K. destruct (nth_error (ptrs m) v) as [a|]; [|discriminate]. cbn [bind] in K. inversion K; subst.
    cbn [frontier set_frontier]. rewrite (upd_get' _ _ _ _ Uf). destruct (Nat.eqb_spec u v); [destruct Hu; congruence|auto].
  - destruct (nth_error (ptrs m) (S v)) as [e|]; [|discriminate]. cbn [bind] in K. destruct (i <? e)%nat; [|inversion K; subst; auto].
    destruct (nth_error (cols m) i) as [w|]; [|discriminate]. cbn [bind] in K. destruct (nth_error vals i) as [c|]; [|discriminate]. cbn [bind] in K. destruct (c <=? 0); [inversion K; subst; auto|].
    destruct (nth_error (visited b) w) as [[|]|]; cbn [bind] in K; [inversion K; subst; auto| |discriminate]. destruct (upd (visited b) w true); [|discriminate]. cbn [bind] in K. inversion K; subst; auto.
  - destruct (nth_error (cols m) i) as [w|]; [|discriminate]. cbn [bind] in K. destruct (upd (frontier b) w true) as [fr|] eqn:Uf; [|discriminate]. cbn [bind] in K. inversion K; subst.
    cbn [frontier set_frontier]. rewrite (upd_get' _ _ _ _ Uf). destruct (u =? w)%nat; auto.
  - destruct (nth_error (cols m) i) as [w|]; [|discriminate]. cbn [bind] in K. destruct (upd _ _ _); [|discriminate]. cbn [bind] in K. inversion K; subst; auto.
  - destruct (nth_error (pflow b) v) as [w|]; [|discriminate]. cbn [bind] in K. inversion K; subst; auto.
  - destruct (nth_error (cols m) i) as [w|]; [|discriminate]. cbn [bind] in K. destruct (nth_error vals i) as [c|]; [|discriminate]. cbn [bind] in K. destruct (upd _ _ _); [|discriminate]. cbn [bind] in K. inversion K; subst; auto.
  - destruct (nth_error (cols m) i) as [w|]; [|discriminate]. cbn [bind] in K. inversion K; subst. destruct (w =? sink)%nat; auto.
  - inversion K; subst; auto.
Qed.
Lemma phi_steps k b ths b' ths' : steps m vals sink k (b, ths) (b', ths') -> (phi b' ths' <= phi b ths)%nat.
Proof.
  intros St. remember (b, ths) as s0. remember (b', ths') as s1. revert b ths b' ths' Heqs0 Heqs1.
  induction St as [s|j b1 ths1 k1 v p b2 p' ths2 s E Np K U St IH]; intros b ths b' ths' E0 E1.
  - subst. inversion E1; subst. lia.
  - inversion E0; subst. specialize (IH b2 ths2 b' ths' eq_refl eq_refl). destruct (phi_step _ _ _ _ _ _ _ _ E K U). lia.
Qed.
Lemma phi_launch k b ths b' ths' : own_place ths -> steps m vals sink k (b, ths) (b', ths') -> all_done ths' ->
  (exists u p, nth_error ths u = Some (u, p) /\ (p = Enter \/ p = Clear) /\ fro b u = true) -> (phi b' ths' < phi b ths)%nat.
Proof.
  intros O St Dn. remember (b, ths) as s0. remember (b', ths') as s1. revert b ths b' ths' Heqs0 Heqs1 O Dn.
  induction St as [s|j b1 ths1 k1 v p b2 p' ths2 s E Np K U St IH]; intros b ths b' ths' E0 E1 O Dn (u & q & Eu & Hq & F).
  - subst. inversion E1; subst. exfalso. unfold all_done in Dn. rewrite Forall_forall in Dn. specialize (Dn _ (nth_error_In _ _ Eu)). cbn in Dn. destruct Hq; congruence.
  - inversion E0; subst. pose proof (phi_step _ _ _ _ _ _ _ _ E K U) as (Pw & Ps). pose proof (O _ _ E) as Ov. cbn in Ov. subst k1.
    assert (O2 : own_place ths2) by (intros k th Ek; apply (upd_nth_cases _ _ _ _ _ _ U) in Ek as [[-> ->]|[_ Ek]]; auto).
    destruct (Nat.eq_dec v u) as [->|Ne].
    + assert (p = q) by congruence. subst q. destruct Hq as [->| ->].
      * cbn [kstep] in K. unfold fro in F. destruct (nth_error (frontier b) u) as [f|] eqn:Ef; [|discriminate]. rewrite (nth_some _ _ _ false Ef) in F. subst f. cbn [bind] in K. inversion K; subst.
        assert (phi b' ths' < phi b2 ths2)%nat; [|lia]. eapply (IH b2 ths2); eauto. exists u, Clear. split; [eapply upd_nth_eq; eauto|]. split; [auto|]. unfold fro. apply nth_some; auto.
      * specialize (Ps eq_refl F). pose proof (phi_steps _ _ _ _ _ St). lia.
    + assert (phi b' ths' < phi b2 ths2)%nat; [|lia]. eapply (IH b2 ths2); eauto. exists u, q. split; [rewrite (upd_nth_neq _ _ _ _ _ U); auto|]. split; [auto|]. eapply fro_step; eauto.
Qed.
Lemma enter_in th : In th (enter m) -> (fst th < n)%nat /\ snd th = Enter.
Proof. unfold enter. intro I. apply in_map_iff in I as (v & <- & I). apply in_seq in I. split; [cbn; lia|reflexivity]. Qed.
Lemma enter_nth k th : nth_error (enter m) k = Some th -> th = (k, Enter).
Proof.
  unfold enter. intro E. pose proof (nth_error_some_lt _ _ _ E) as L. rewrite map_length, seq_length in L.
  erewrite map_nth_error in E; [inversion E; reflexivity|]. rewrite (nth_lt_some _ _ O) by (rewrite seq_length; auto). rewrite seq_nth by auto. reflexivity.
Qed.
Lemma inv_reenter b ths x : inv b ths -> inv (set_found b x) (enter m).
Proof.
  intros I. apply (inv_core b); auto. destruct I as (L & So & P & V & T & Lo & D). split; [auto|]. split; [auto|]. split; [auto|]. split; [auto|]. split; [|split; [|exact D]].
  - apply Forall_forall. intros [u p] I. apply enter_in in I as (Lu & Ep). cbn in *. subst p. split; cbn; auto.
  - intros k k' th th' v E _ C. apply enter_nth in E. subst th. destruct C.
Qed.
Lemma wsum_zero {A} (f : A -> nat) l : (forall x, In x l -> f x = O) -> wsum f l = O.
Proof. induction l as [|a l IH]; intro H; [reflexivity|]. cbn. rewrite (H a) by (left; auto). rewrite IH; auto. intros; apply H; right; auto. Qed.
Definition phi0 (b : bst) : nat := phi b [].
Lemma phi_done b ths : all_done ths -> phi b ths = phi0 b.
Proof. intro D. unfold phi0, phi. rewrite (wsum_zero marking ths); [reflexivity|]. intros th I. unfold all_done in D. rewrite Forall_forall in D. unfold marking. rewrite (D _ I). reflexivity. Qed.
Lemma phi_enter b : phi b (enter m) = phi0 b.
Proof. unfold phi0, phi. rewrite (wsum_zero marking (enter m)); [reflexivity|]. intros th I. apply enter_in in I as (_ & E). unfold marking. rewrite E. reflexivity. Qed.
Lemma launch_ok b b' x : inv b (enter m) -> launch_any m vals sink (set_found b x) b' -> inv b' (enter m) /\ (phi0 b' <= phi0 b)%nat /\ (forallb negb (frontier b) = false -> (phi0 b' < phi0 b)%nat).
Proof.
  intros I (k & ths & St & Dn). pose proof (inv_steps _ _ _ _ _ (inv_reenter _ _ x I) St) as I'. split.
  - destruct b' as [a1 a2 a3 a4 a5]. exact (inv_reenter _ _ a5 I').
  - assert (Pb : phi (set_found b x) (enter m) = phi0 b) by (rewrite phi_enter; reflexivity). rewrite <- Pb, <- (phi_done b' ths Dn). split; [eapply phi_steps; eauto|].
    intro Fb. eapply phi_launch; eauto; [intros k0 th E; apply enter_nth in E; subst; reflexivity|].
    destruct I as ((_ & L2 & _) & _). assert (exists u, nth_error (frontier b) u = Some true) as [u Eu].
    { clear - Fb. induction (frontier b) as [|f l IH]; [discriminate|]. cbn in Fb. destruct f; [exists O; reflexivity|]. cbn in Fb. destruct (IH Fb) as [u E]. exists (S u). exact E. }
    exists u, Enter. pose proof (nth_error_some_lt _ _ _ Eu) as Lu. split; [|split; [auto|unfold fro; apply nth_some; auto]]. unfold enter. apply (map_nth_error (fun v => (v, Enter)) u (seq 0 n) (d := u)).
    rewrite (nth_lt_some _ _ O) by (rewrite seq_length; lia). rewrite seq_nth by lia. reflexivity.
Qed.
Lemma find_any k b b' : find_loop (launch_any m vals sink) k b b' -> inv b (enter m) -> inv b' (enter m) /\ (k <= phi0 b)%nat.
Proof.
  induction 1 as [b F|b b' F L Fd|k b b1 b2 F L Fd Lp IH]; intro I.
  - split; [auto|lia].
  - destruct (launch_ok _ _ _ I L) as (I' & _ & P). specialize (P F). split; [auto|lia].
  - destruct (launch_ok _ _ _ I L) as (I' & _ & P). specialize (P F). destruct (IH I') as (I2 & K). split; [auto|lia].
Qed.

(** existence *)
Lemma alone_ex N : forall b ths k v p, (meas (v, p) <= N)%nat -> inv b ths -> nth_error ths k = Some (v, p) -> exists b' ths', alone m vals sink b v p b' /\ upd ths k (v, Done) = Some ths' /\ inv b' ths'.
Proof.
  induction N as [|N IH]; intros b ths k v p M I E.
  - assert (D : p = Done \/ p <> Done) by (destruct p; auto; right; discriminate). destruct D as [->|Np].
    + destruct (upd_some ths k (v, Done)) as [ths' U]; [eapply nth_error_some_lt; eauto|]. exists b, ths'. split; [constructor|]. split; [exact U|]. eapply (inv_step _ _ _ _ Done); eauto. reflexivity.
    + exfalso. destruct (progress _ _ _ _ _ I E) as (b' & p' & K). assert (T : tok b (v, p)) by (destruct I as (_ & _ & _ & _ & T & _); rewrite Forall_forall in T; apply T; eapply nth_error_In; eauto).
      pose proof (meas_step _ _ _ _ _ T Np K). lia.
  - assert (D : p = Done \/ p <> Done) by (destruct p; auto; right; discriminate). destruct D as [->|Np].
    + destruct (upd_some ths k (v, Done)) as [ths' U]; [eapply nth_error_some_lt; eauto|]. exists b, ths'. split; [constructor|]. split; [exact U|]. eapply (inv_step _ _ _ _ Done); eauto. reflexivity.
    + destruct (progress _ _ _ _ _ I E) as (b' & p' & K). assert (T : tok b (v, p)) by (destruct I as (_ & _ & _ & _ & T & _); rewrite Forall_forall in T; apply T; eapply nth_error_In; eauto).
      pose proof (meas_step _ _ _ _ _ T Np K) as Ms. destruct (upd_some ths k (v, p')) as [ths1 U]; [eapply nth_error_some_lt; eauto|]. pose proof (inv_step _ _ _ _ _ _ _ _ I E K U) as I1.
      destruct (IH b' ths1 k v p' ltac:(lia) I1 (upd_nth_eq _ _ _ _ U)) as (b2 & ths2 & A & U2 & I2). exists b2, ths2. split; [econstructor; eauto|]. split; [|exact I2].
      rewrite <- U2. clear - U. revert k ths1 U. induction ths as [|a ths IH]; intros [|k] ths1 U; cbn in *; try discriminate.
      * inversion U; subst. reflexivity.
      * destruct (upd ths k (v, p')) as [l|] eqn:Eu; [|discriminate]. inversion U; subst. cbn. rewrite (IH k l Eu). reflexivity.
Qed.
Lemma in_turn_ex l : forall b ths, NoDup l -> (forall v, In v l -> (v < n)%nat) -> pending l ths -> inv b ths -> exists b', in_turn m vals sink l b b'.
Proof.
  induction l as [|v l IH]; intros b ths N Hl P I; [exists b; constructor|].
  assert (Lv : (v < n)%nat) by (apply Hl; left; auto). destruct (upd_some ths v (v, Done)) as [ths1 U]; [destruct P; lia|]. destruct (pending_cons _ _ _ _ N Lv P U) as (E & P1).
  destruct (alone_ex _ b ths v v Enter (le_n _) I E) as (b1 & ths2 & A & U2 & I2). rewrite U in U2. inversion U2; subst ths2. inversion N; subst.
  destruct (IH b1 ths1 ltac:(auto) ltac:(intros; apply Hl; right; auto) P1 I2) as (b2 & T). exists b2. econstructor; eauto.
Qed.
Lemma launch_ex b : inv b (enter m) -> exists b', launch_apart m vals sink b b'.
Proof.
  intro I. destruct (in_turn_ex (seq 0 n) b (enter m) (seq_NoDup _ _)) as (b' & T); [intros v Iv; apply in_seq in Iv; lia|apply enter_pending|exact I|]. exists b', (seq 0 n). auto.
Qed.
Lemma find_ex N : forall b, (phi0 b <= N)%nat -> inv b (enter m) -> exists k b', find_loop (launch_apart m vals sink) k b b'.
Proof.
  induction N as [|N IH]; intros b P I.
  - destruct (forallb negb (frontier b)) eqn:F; [exists O, b; constructor; auto|]. exfalso. destruct (launch_ex (set_found b false)) as (b' & L); [apply (inv_reenter _ _ _ I)|].
    destruct (launch_ok b b' false I (apart_any _ _ L)) as (_ & _ & Q). specialize (Q F). lia.
  - destruct (forallb negb (frontier b)) eqn:F; [exists O, b; constructor; auto|]. destruct (launch_ex (set_found b false)) as (b' & L); [apply (inv_reenter _ _ _ I)|].
    destruct (launch_ok b b' false I (apart_any _ _ L)) as (I' & _ & Q). specialize (Q F). destruct (found b') eqn:Fd; [exists 1%nat, b'; econstructor; eauto|].
    destruct (IH b' ltac:(lia) I') as (k & b2 & Lp). exists (S k), b2. econstructor; eauto.
Qed.
Lemma find_mono (L1 L2 : bst -> bst -> Prop) k b b' : (forall x y, L1 x y -> L2 x y) -> find_loop L1 k b b' -> find_loop L2 k b b'.
Proof. intros H F. induction F; econstructor; eauto. Qed.
(** the first state *)
Lemma top_inv ps b0 : length ps = n -> top_of top n source ps = Some b0 -> inv b0 (enter m) /\ (phi0 b0 + 1 = 2 * n)%nat.
Proof.
  intros Lp E. unfold top_of in E. destruct (upd (repeat false n) source true) as [v|] eqn:Uv; [|discriminate]. cbn [bind] in E. destruct (upd ps source (-1)) as [ps'|] eqn:Up; [|discriminate]. cbn [bind] in E.
  destruct (upd (repeat 0 n) source top) as [fl|] eqn:Uf; [|discriminate]. cbn [bind] in E. inversion E; subst b0. clear E.
  assert (Gv : forall u, nth u v false = (u =? source)%nat) by (intro u; rewrite (upd_get' _ _ _ _ Uv); destruct (u =? source)%nat; auto; apply nth_repeat).
  assert (Gf : forall u, nth u fl 0 = if (u =? source)%nat then top else 0) by (intro u; rewrite (upd_get' _ _ _ _ Uf); destruct (u =? source)%nat; auto; apply nth_repeat).
  assert (Gp : nth source ps' 0 = -1) by (rewrite (upd_get' _ _ _ _ Up), Nat.eqb_refl; auto).
  pose proof (upd_length _ _ _ _ Uv) as L1. pose proof (upd_length _ _ _ _ Up) as L2. pose proof (upd_length _ _ _ _ Uf) as L3. rewrite repeat_length in L1, L3.
  split.
  - split; [unfold lens; cbn; auto 6; lia|]. unfold vis, par, pf. cbn [visited parents pflow]. split; [rewrite Gv, Gf, Nat.eqb_refl; auto|]. split; [intro u; unfold pf; cbn; rewrite Gf; destruct (u =? source)%nat; lia|].
    split; [intros u U; rewrite Gv in U; unfold pf; cbn; rewrite Gf; destruct (u =? source)%nat; [discriminate|auto]|]. split; [|split].
    + apply Forall_forall. intros [u p] I. apply enter_in in I as (Lu & Ep). cbn in *. subst p. split; cbn; auto.
    + intros k k' th th' w Ek _ C. apply enter_nth in Ek. subst th. destruct C.
    + exists [source]. split; [constructor; [intros []|constructor]|]. split.
      * intro u. unfold pf. cbn [pflow]. rewrite Gf. cbn. destruct (Nat.eqb_spec u source) as [->|Ne]; split; try lia; auto; intros [Q|[]]; congruence.
      * intros [|k] u Eu; cbn in Eu; [inversion Eu; auto|destruct k; discriminate].
  - unfold phi0, phi. cbn [visited frontier wsum]. assert (W : forall (f : bool -> nat) l, wsum f (repeat l n) = (n * f l)%nat) by (intros f l; clear; induction n as [|k IH]; [reflexivity|]; cbn [repeat wsum]; rewrite IH; lia).
    assert (E0 : nth_error (repeat false n) source = Some false) by (rewrite (nth_lt_some _ _ false) by (rewrite repeat_length; auto); f_equal; apply nth_repeat).
    pose proof (wsum_upd (fun x => b2n (negb x)) _ _ _ _ _ E0 Uv) as A. pose proof (wsum_upd b2n _ _ _ _ _ E0 Uv) as B. rewrite W in A, B. cbn [negb b2n] in A, B. lia.
Qed.
Lemma top_ex ps : length ps = n -> exists b0, top_of top n source ps = Some b0.
Proof.
  intro Lp. unfold top_of. destruct (upd_some (repeat false n) source true) as [v ->]; [rewrite repeat_length; auto|]. destruct (upd_some ps source (-1)) as [p ->]; [lia|].
  destruct (upd_some (repeat 0 n) source top) as [f ->]; [rewrite repeat_length; auto|]. cbn [bind]. eauto.
Qed.
End S.
