(** Invocations that do not overlap: a search that does not reach the sink has visited a closed set. *)
From Verif Require Import Prelude SortModel FlowModel FlowSpec FlowProofs2.
Local Open Scope Z_scope.

Section S.
Variable m : csr.
Variable vals : list Z.
Variables source sink : nat.
Notation n := (verts m).
Notation entry := (entry (ptrs m) (cols m)).

(** every edge of u with a positive value stored before position i leads to a visited vertex *)
Definition upto (b : bst) (u i : nat) : Prop := forall w j c, entry u w j -> (j < i)%nat -> nth_error vals j = Some c -> 0 < c -> vis b w = true.
Definition closed (b : bst) (u : nat) : Prop := forall w j c, entry u w j -> nth_error vals j = Some c -> 0 < c -> vis b w = true.
Definition claimed (p : pc) (u : nat) : Prop := match p with Mark i | Parent i | Fetch i | Flow i _ => nth_error (cols m) i = Some u | _ => False end.
Definition half (p : pc) : Prop := match p with Enter | Clear | Done => False | _ => True end.
Definition base (b : bst) (v : nat) (p : pc) : Prop :=
  vis b source = true /\ (forall u, fro b u = true -> vis b u = true) /\ (found b = true -> vis b sink = true) /\
  (forall u, vis b u = true -> 0 < pf b u \/ claimed p u) /\
  (forall u, vis b u = true -> fro b u = false -> (u = v /\ half p) \/ (exists i, p = Mark i /\ nth_error (cols m) i = Some u) \/ closed b u).
Definition here (b : bst) (v : nat) (p : pc) : Prop :=
  match p with
  | Enter | Done => True
  | Clear => vis b v = true
  | Edge i => vis b v = true /\ upto b v i
  | Mark i | Parent i | Fetch i => vis b v = true /\ upto b v (S i) /\ 0 < pf b v /\ (exists w, nth_error (cols m) i = Some w /\ vis b w = true /\ w <> v) /\ (exists c, nth_error vals i = Some c /\ 0 < c)
  | Flow i x => vis b v = true /\ upto b v (S i) /\ 0 < pf b v /\ (exists w, nth_error (cols m) i = Some w /\ vis b w = true /\ w <> v) /\ (exists c, nth_error vals i = Some c /\ 0 < c) /\ 0 < x
  | Sink i => vis b v = true /\ upto b v (S i) /\ exists w, nth_error (cols m) i = Some w /\ vis b w = true
  end.
Lemma upto_next b v i w c : upto b v i -> nth_error (cols m) i = Some w -> nth_error vals i = Some c -> (0 < c -> vis b w = true) -> upto b v (S i).
Proof.
  intros U E C H w' j c' En L Ec P. destruct (Nat.eq_dec j i) as [->|Ne]; [|eapply U; eauto; lia]. destruct En as (a & e & _ & _ & _ & Ew). assert (w' = w) by congruence. assert (c' = c) by congruence. subst. auto.
Qed.
Lemma upto_mono b b' v i : (forall u, vis b u = true -> vis b' u = true) -> upto b v i -> upto b' v i.
Proof. intros H U w j c A B C D. eapply H, U; eauto. Qed.
Lemma closed_mono b b' v : (forall u, vis b u = true -> vis b' u = true) -> closed b v -> closed b' v.
Proof. intros H U w j c A C D. eapply H, U; eauto. Qed.

Lemma here_step b v p b' p' : base b v p -> here b v p -> kstep m vals sink b v p = Some (b', p') -> base b' v p' /\ here b' v p'.
Proof.
  intros (Bs & Bf & Bk & Bp & Bc) H K. destruct p as [| |i|i|i|i|i x|i|]; cbn [kstep] in K.
  - destruct (nth_error (frontier b) v) as [[|]|] eqn:Ef; cbn [bind] in K; inversion K; subst; (split; [split; [auto|]; split; [auto|]; split; [auto|]; split; [auto|]|]); cbn; auto.
    + intros u V F. destruct (Bc u V F) as [[_ []]|[(i & Q & _)|Q]]; [discriminate|auto].
    + apply Bf. unfold fro. apply nth_some. auto.
    + intros u V F. destruct (Bc u V F) as [[_ []]|[(i & Q & _)|Q]]; [discriminate|auto].
  - destruct (upd (frontier b) v false) as [fr|] eqn:Uf; [|discriminate]. cbn [bind] in K. destruct (nth_error (ptrs m) v) as [a|] eqn:Ea; [|discriminate]. cbn [bind] in K. inversion K; subst. cbn in H.
    assert (Gf : forall u, fro (set_frontier b fr) u = if (u =? v)%nat then false else fro b u) by (intro u; unfold fro; cbn [frontier set_frontier]; apply (upd_get' _ _ _ _ Uf)).
    split; [split; [auto|]; split; [|split; [auto|]; split; [auto|]]|].
    + intros u F. rewrite Gf in F. destruct (u =? v)%nat; [discriminate|]. apply Bf. auto.
    + intros u V F. rewrite Gf in F. destruct (Nat.eqb_spec u v) as [->|Ne]; [left; split; cbn; auto|]. destruct (Bc u V F) as [[_ []]|[(i & Q & _)|Q]]; [discriminate|auto].
    + cbn. split; [exact H|]. intros w j c (a' & e & E1 & _ & L & _) Lj. assert (a' = a) by congruence. lia.
  - destruct H as (Hv & Hu). destruct (nth_error (ptrs m) (S v)) as [e|] eqn:Ee; [|discriminate]. cbn [bind] in K. destruct (Nat.ltb_spec i e) as [Li|Li].
    2:{ inversion K; subst. split; [|exact I]. split; [auto|]. split; [auto|]. split; [auto|]. split; [auto|]. intros u V F. right. right. destruct (Bc u V F) as [[-> _]|[(i0 & Q & _)|Q]]; [|discriminate|exact Q].
        intros w j c En Ec P. eapply Hu; eauto. destruct En as (a & e' & _ & E2 & L & _). assert (e' = e) by congruence. lia. }
    destruct (nth_error (cols m) i) as [w|] eqn:Ew; [|discriminate]. cbn [bind] in K. destruct (nth_error vals i) as [c|] eqn:Ec; [|discriminate]. cbn [bind] in K.
    assert (Bc' : forall u, vis b u = true -> fro b u = false -> (u = v /\ True) \/ closed b u) by (intros u V F; destruct (Bc u V F) as [[-> _]|[(i0 & Q & _)|Q]]; [auto|discriminate|auto]).
    destruct (Z.leb_spec c 0) as [Lc|Lc].
    { inversion K; subst. split; [split; [auto|]; split; [auto|]; split; [auto|]; split; [auto|]|].
      - intros u V F. destruct (Bc' u V F) as [[-> _]|Q]; [left; split; cbn; auto|auto].
      - split; [auto|]. eapply upto_next; eauto. lia. }
    destruct (nth_error (visited b) w) as [[|]|] eqn:Es; cbn [bind] in K; [| |discriminate].
    { inversion K; subst. split; [split; [auto|]; split; [auto|]; split; [auto|]; split; [auto|]|].
      - intros u V F. destruct (Bc' u V F) as [[-> _]|Q]; [left; split; cbn; auto|auto].
      - split; [auto|]. eapply upto_next; eauto. intros _. apply nth_some. auto. }
    destruct (upd (visited b) w true) as [vi|] eqn:Uv; [|discriminate]. cbn [bind] in K. inversion K; subst.
    assert (Gv : forall u, vis (set_visited b vi) u = if (u =? w)%nat then true else vis b u) by (intro u; unfold vis; cbn [visited set_visited]; apply (upd_get' _ _ _ _ Uv)).
    assert (Mv : forall u, vis b u = true -> vis (set_visited b vi) u = true) by (intros u V; rewrite Gv; destruct (u =? w)%nat; auto).
    assert (Nw : w <> v) by (intros ->; unfold vis in Hv; rewrite (nth_some _ _ _ false Es) in Hv; discriminate).
    assert (Pv : 0 < pf b v) by (destruct (Bp v Hv) as [Q|[]]; auto).
    split; [split; [apply Mv; auto|]; split; [intros u F; apply Mv, Bf; auto|]; split; [intro F; apply Mv, Bk; auto|]; split|].
    + intros u V. rewrite Gv in V. destruct (Nat.eqb_spec u w) as [Eq|Ne]; [right; rewrite Eq; exact Ew|]. destruct (Bp u V) as [Q|[]]. left. exact Q.
    + intros u V F. rewrite Gv in V. destruct (Nat.eqb_spec u w) as [Eq|Ne]; [right; left; exists i; rewrite Eq; auto|]. destruct (Bc' u V F) as [[-> _]|Q]; [left; split; cbn; auto|]. right. right. eapply closed_mono; eauto.
    + split; [apply Mv; auto|]. split; [eapply upto_next; eauto; [eapply upto_mono; eauto|intros _; rewrite Gv, Nat.eqb_refl; auto]|]. split; [exact Pv|]. split; [exists w; rewrite Gv, Nat.eqb_refl; auto|]. exists c. auto.
  - destruct H as (Hv & Hu & Hp & (w & Ew & Vw & Nw) & Hc). rewrite Ew in K. cbn [bind] in K. destruct (upd (frontier b) w true) as [fr|] eqn:Uf; [|discriminate]. cbn [bind] in K. inversion K; subst.
    assert (Gf : forall u, fro (set_frontier b fr) u = if (u =? w)%nat then true else fro b u) by (intro u; unfold fro; cbn [frontier set_frontier]; apply (upd_get' _ _ _ _ Uf)).
    split; [split; [auto|]; split; [|split; [auto|]; split; [auto|]]|].
    + intros u F. rewrite Gf in F. destruct (Nat.eqb_spec u w) as [Eq|]; [rewrite Eq; exact Vw|]. apply Bf. auto.
    + intros u V F. rewrite Gf in F. destruct (Nat.eqb_spec u w) as [Eq|Ne]; [discriminate|]. destruct (Bc u V F) as [[-> _]|[(i0 & Q & Q2)|Q]]; [left; split; cbn; auto|inversion Q; subst; congruence|auto].
    + cbn. split; [exact Hv|]. split; [exact Hu|]. split; [exact Hp|]. split; [exists w; auto|exact Hc].
  - destruct H as (Hv & Hu & Hp & (w & Ew & Vw & Nw) & Hc). rewrite Ew in K. cbn [bind] in K. destruct (upd (parents b) w _) as [fr|] eqn:Uf; [|discriminate]. cbn [bind] in K. inversion K; subst.
    split; [split; [auto|]; split; [auto|]; split; [auto|]; split; [auto|]|].
    + intros u V F. destruct (Bc u V F) as [[-> _]|[(i0 & Q & Q2)|Q]]; [left; split; cbn; auto|discriminate|auto].
    + cbn. split; [exact Hv|]. split; [exact Hu|]. split; [exact Hp|]. split; [exists w; auto|exact Hc].
  - destruct H as (Hv & Hu & Hp & (w & Ew & Vw & Nw) & Hc). destruct (nth_error (pflow b) v) as [x|] eqn:Ex; [|discriminate]. cbn [bind] in K. inversion K; subst.
    split; [split; [auto|]; split; [auto|]; split; [auto|]; split; [auto|]|].
    + intros u V F. destruct (Bc u V F) as [[-> _]|[(i0 & Q & Q2)|Q]]; [left; split; cbn; auto|discriminate|auto].
    + cbn. split; [exact Hv|]. split; [exact Hu|]. split; [exact Hp|]. split; [exists w; auto|]. split; [exact Hc|]. unfold pf in Hp. rewrite (nth_some _ _ _ 0 Ex) in Hp. exact Hp.
  - destruct H as (Hv & Hu & Hp & (w & Ew & Vw & Nw) & (c & Ec & Lc) & Hx). rewrite Ew in K. cbn [bind] in K. rewrite Ec in K. cbn [bind] in K. destruct (upd (pflow b) w _) as [fr|] eqn:Uf; [|discriminate]. cbn [bind] in K. inversion K; subst.
    assert (Gp : forall u, pf (set_pflow b fr) u = if (u =? w)%nat then (if c <? x then c else x) else pf b u) by (intro u; unfold pf; cbn [pflow set_pflow]; apply (upd_get' _ _ _ _ Uf)).
    split; [split; [auto|]; split; [auto|]; split; [auto|]; split|].
    + intros u V. left. rewrite Gp. destruct (Nat.eqb_spec u w) as [Eq|Ne]; [destruct (Z.ltb_spec c x); lia|]. destruct (Bp u V) as [Q|Q]; [exact Q|]. cbn in Q. congruence.
    + intros u V F. destruct (Bc u V F) as [[-> _]|[(i0 & Q & Q2)|Q]]; [left; split; cbn; auto|discriminate|auto].
    + cbn. split; [exact Hv|]. split; [exact Hu|]. exists w; auto.
  - destruct H as (Hv & Hu & (w & Ew & Vw)). rewrite Ew in K. cbn [bind] in K. inversion K; subst.
    assert (G : forall b', visited b' = visited b -> frontier b' = frontier b -> pflow b' = pflow b -> (found b' = true -> vis b sink = true) -> base b' v (Edge (S i)) /\ here b' v (Edge (S i))).
    { intros b' E1 E2 E3 E4. assert (Ev : forall u, vis b' u = vis b u) by (intro; unfold vis; rewrite E1; auto). assert (Ef : forall u, fro b' u = fro b u) by (intro; unfold fro; rewrite E2; auto). assert (Ep : forall u, pf b' u = pf b u) by (intro; unfold pf; rewrite E3; auto).
      split; [split; [rewrite Ev; auto|]; split; [intros u; rewrite Ev, Ef; auto|]; split; [rewrite Ev; auto|]; split|].
      - intros u. rewrite Ev, Ep. exact (Bp u).
      - intros u. rewrite Ev, Ef. intros V F. destruct (Bc u V F) as [[-> _]|[(i0 & Q & Q2)|Q]]; [left; split; cbn; auto|discriminate|]. right. right. eapply closed_mono; [|exact Q]. intros; rewrite Ev; auto.
      - split; [rewrite Ev; auto|]. eapply upto_mono; [|exact Hu]. intros; rewrite Ev; auto. }
    destruct (Nat.eqb_spec w sink) as [->|Ne]; apply G; auto.
  - inversion K; subst. split; [split; auto|auto].
Qed.
Lemma base_quiet b v p v' p' : (p = Enter \/ p = Done) -> (p' = Enter \/ p' = Done) -> base b v p -> base b v' p'.
Proof.
  intros Hp Hp' (A & B & C & D & E). assert (N1 : forall u, claimed p u -> False) by (destruct Hp as [->| ->]; cbn; auto). 
  split; [auto|]. split; [auto|]. split; [auto|]. split; [intros u V; destruct (D u V) as [Q|Q]; [auto|destruct (N1 _ Q)]|].
  intros u V F. destruct (E u V F) as [[_ Q]|[(i & Q & _)|Q]]; [destruct Hp as [->| ->]; destruct Q|destruct Hp as [->| ->]; discriminate|auto].
Qed.
Lemma base_alone b v p b' : alone m vals sink b v p b' -> base b v p -> here b v p -> base b' v Done.
Proof. induction 1 as [b v|b v p b1 p1 b2 Np K A IH]; intros Bb Hh; [exact Bb|]. destruct (here_step _ _ _ _ _ Bb Hh K). auto. Qed.
Lemma base_turn l b b' : in_turn m vals sink l b b' -> base b O Enter -> base b' O Enter.
Proof.
  induction 1 as [b|v l b b1 b2 A T IH]; intro Bb; [exact Bb|]. apply IH. eapply (base_quiet _ v Done); auto. eapply base_alone; eauto; [|exact I]. eapply (base_quiet _ O Enter); eauto.
Qed.
Lemma base_find k b b' : find_loop (launch_apart m vals sink) k b b' -> base b O Enter -> base b' O Enter /\ (forallb negb (frontier b') = true \/ found b' = true).
Proof.
  assert (R : forall b x, x = false -> base b O Enter -> base (set_found b x) O Enter) by (intros b0 x -> (A & B & C & D & E); split; [auto|]; split; [auto|]; split; [discriminate|]; split; auto).
  induction 1 as [b F|b b' F (l & _ & L) Fd|k b b1 b2 F (l & _ & L) Fd Lp IH]; intro Bb.
  - auto.
  - split; [|auto]. eapply base_turn; eauto.
  - apply IH. eapply base_turn; eauto.
Qed.
Lemma top_base top ps b0 : 0 < top -> top_of top n source ps = Some b0 -> base b0 O Enter.
Proof.
  intros Ht E. unfold top_of in E. destruct (upd (repeat false n) source true) as [v|] eqn:Uv; [|discriminate]. cbn [bind] in E. destruct (upd ps source (-1)) as [ps'|] eqn:Up; [|discriminate]. cbn [bind] in E.
  destruct (upd (repeat 0 n) source top) as [fl|] eqn:Uf; [|discriminate]. cbn [bind] in E. inversion E; subst b0. clear E.
  assert (Gv : forall u, nth u v false = (u =? source)%nat) by (intro u; rewrite (upd_get' _ _ _ _ Uv); destruct (u =? source)%nat; auto; apply nth_repeat).
  assert (Gf : forall u, nth u fl 0 = if (u =? source)%nat then top else 0) by (intro u; rewrite (upd_get' _ _ _ _ Uf); destruct (u =? source)%nat; auto; apply nth_repeat).
  unfold base, vis, fro, pf. cbn [visited frontier pflow found]. split; [rewrite Gv, Nat.eqb_refl; auto|]. split; [auto|]. split; [discriminate|]. split; [|intros u V F; congruence].
  intros u V. rewrite Gv in V. rewrite Gf, V. auto.
Qed.
(** a search with non-overlapping invocations finds the sink, or a closed set without the sink *)
Lemma find_apart top ps k b r : 0 < top -> find_run launch_apart m vals top source sink ps k b r -> (forall v, vis b v = false -> pf b v = 0) ->
  r = false -> vis b source = true /\ vis b sink = false /\ forall u, vis b u = true -> closed b u.
Proof.
  intros Ht (b0 & E0 & L & x & Ex & ->) Hz Hr. pose proof (top_base _ _ _ Ht E0) as B0. destruct (base_find _ _ _ L B0) as ((Bs & Bf & Bk & Bp & Bc) & Fin).
  assert (Px : pf b sink = x) by (apply nth_some; auto). apply Z.ltb_ge in Hr.
  assert (Vs : vis b sink = false) by (destruct (vis b sink) eqn:V; auto; destruct (Bp _ V) as [Q|[]]; lia).
  split; [exact Bs|]. split; [exact Vs|]. destruct Fin as [Fe|Fd]; [|rewrite (Bk Fd) in Vs; discriminate].
  intros u V. destruct (Bc u V) as [[_ []]|[(i & Q & _)|Q]]; [|discriminate|exact Q].
  unfold fro. rewrite forallb_forall in Fe. destruct (Nat.lt_ge_cases u (length (frontier b))) as [L1|L1]; [|apply nth_overflow; auto]. specialize (Fe _ (nth_In _ false L1)). apply negb_true_iff. exact Fe.
Qed.
End S.
