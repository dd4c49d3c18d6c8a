(** Augmentation and the main loop. *)
From Verif Require Import Prelude SortModel BhtModel FlowModel FlowSpec FlowProofs FlowProofs2 FlowProofs3 FlowProofs4.
Local Open Scope Z_scope.

Section A.
Variable m : csr.
Variable vals0 : list Z.
Variables source sink : nat.
Variable top : Z.
Variable c : nat -> nat -> Z.
Notation n := (verts m).
Notation entry := (entry (ptrs m) (cols m)).
Hypothesis Hnet : network n (ptrs m) (cols m) vals0.
Hypothesis Hrows : rows_apart (ptrs m) (cols m).
Hypothesis Hcap : capacity (ptrs m) (cols m) vals0 c.
Hypothesis Hs : (source < n)%nat.
Hypothesis Hk : (sink < n)%nat.
Hypothesis Hsk : source <> sink.
Hypothesis Htop : 0 < top.
Variable h : nat -> nat * nat -> nat.
Variable B : nat.
Variable t : @table (nat * nat).
Variable buf : list nat.
Hypothesis Hid : forall u v j, entry u v j -> edge_id h B t buf u v = Some j.

Lemma Nptrs : length (ptrs m) = S n. Proof. apply Hnet. Qed.
Lemma Nptr : forall u a, nth_error (ptrs m) u = Some a -> (a <= length (cols m))%nat. Proof. apply Hnet. Qed.
Lemma Ncol : forall u v j, entry u v j -> (v < n)%nat. Proof. intros u v j E. destruct Hnet as (_ & _ & _ & H & _). apply (H _ _ _ E). Qed.
Lemma Nrev : forall u v j, entry u v j -> exists j', entry v u j'. Proof. intros u v j E. destruct Hnet as (_ & _ & _ & H & _). apply (H _ _ _ E). Qed.
Lemma Nuniq : forall u v j j', entry u v j -> entry u v j' -> j = j'. Proof. apply Hnet. Qed.
Lemma Nvals : length vals0 = length (cols m). Proof. apply Hnet. Qed.
Lemma Nin u v j : entry u v j -> (u < n)%nat. Proof. intro E. apply (entry_u m Nptrs _ _ _ E). Qed.
Lemma entry_dec u v : (exists j, entry u v j) \/ forall j, ~ entry u v j.
Proof.
  destruct (find (fun e => if keq (fst e) (u, v) then true else false) (edges m)) as [[[u' v'] j]|] eqn:F.
  - apply find_some in F as (I & Q). cbn [fst] in Q. destruct (keq (u', v') (u, v)) as [E|]; [|discriminate]. inversion E; subst. left. exists j. apply (in_edges m Nptrs Nptr). exact I.
  - right. intros j En. apply (in_edges m Nptrs Nptr) in En. pose proof (find_none _ _ F _ En) as Q. cbn [fst] in Q. destruct (keq (u, v) (u, v)); congruence.
Qed.
Lemma entry_pos u v j u' v' : entry u v j -> entry u' v' j -> u = u' /\ v = v'.
Proof. intros E E'. split; [eapply Hrows; eauto|]. destruct E as (a & e & _ & _ & _ & C). destruct E' as (a' & e' & _ & _ & _ & C'). congruence. Qed.

(** vals are the residual capacities of f *)
Record resid (vals : list Z) (f : nat -> nat -> Z) : Prop := {
  r_len : length vals = length (cols m);
  r_val : forall u v j, entry u v j -> nth_error vals j = Some (c u v - f u v);
  r_skew : forall u v, f u v = - f v u;
  r_sup : forall u v, f u v <> 0 -> exists j, entry u v j;
  r_pos : forall u v j, entry u v j -> f u v <= c u v }.
Lemma resid_bump vals f p v d j j' vals1 vals2 : resid vals f -> p <> v -> entry p v j -> entry v p j' -> 0 <= d <= c p v - f p v ->
  upd vals j (c p v - f p v - d) = Some vals1 -> upd vals1 j' (c v p - f v p + d) = Some vals2 -> resid vals2 (bump f p v d).
Proof.
  intros [RL RV RS RU RP] Ne E E' Hd U1 U2. pose proof (upd_length _ _ _ _ U1) as L1. pose proof (upd_length _ _ _ _ U2) as L2.
  assert (BV : forall a b, bump f p v d a b = f a b + (if ((a =? p) && (b =? v))%nat%bool then d else 0) - (if ((a =? v) && (b =? p))%nat%bool then d else 0)).
  { intros a b. unfold bump. destruct (Nat.eqb_spec a p), (Nat.eqb_spec b v), (Nat.eqb_spec a v), (Nat.eqb_spec b p); cbn; try lia. }
  split.
  - lia.
  - intros a b i En. rewrite BV. destruct (Nat.eq_dec i j') as [->|N1].
    + destruct (entry_pos _ _ _ _ _ En E') as (-> & ->). rewrite (upd_nth_eq _ _ _ _ U2). rewrite !Nat.eqb_refl. destruct (Nat.eqb_spec v p); [congruence|]. cbn. f_equal. lia.
    + rewrite (upd_nth_neq _ _ _ _ _ U2) by auto. destruct (Nat.eq_dec i j) as [->|N2].
      * destruct (entry_pos _ _ _ _ _ En E) as (-> & ->). rewrite (upd_nth_eq _ _ _ _ U1). rewrite !Nat.eqb_refl. destruct (Nat.eqb_spec p v); [congruence|]. cbn. f_equal. lia.
      * rewrite (upd_nth_neq _ _ _ _ _ U1) by auto. rewrite (RV _ _ _ En). f_equal.
        destruct (Nat.eqb_spec a p) as [Ea|], (Nat.eqb_spec b v) as [Eb|], (Nat.eqb_spec a v) as [Ea'|], (Nat.eqb_spec b p) as [Eb'|]; cbn; subst; try congruence; try lia; exfalso; [apply N2|apply N1]; eapply Nuniq; eauto.
  - apply bump_skew; auto.
  - intros a b Hb. rewrite BV in Hb. destruct (Nat.eqb_spec a p) as [Ea|], (Nat.eqb_spec b v) as [Eb|], (Nat.eqb_spec a v) as [Ea'|], (Nat.eqb_spec b p) as [Eb'|]; cbn in Hb; subst; eauto; apply RU; lia.
  - intros a b i En. rewrite BV. pose proof (RP _ _ _ En). destruct (Nat.eqb_spec a p) as [Ea|], (Nat.eqb_spec b v) as [Eb|], (Nat.eqb_spec a v) as [Ea'|], (Nat.eqb_spec b p) as [Eb'|]; cbn; subst; try lia.
Qed.

Section P.
Variable vals : list Z.
Variable b : bst.
Variable D : list nat.
Variable d : Z.
Hypothesis HT : tree m vals source b D.
Hypothesis Hpar : par b source = -1.
Hypothesis Hlen : length (parents b) = n.
Hypothesis Hd : 0 < d.
Lemma push_ok fuel : forall k v vals1 f1, (k < fuel)%nat -> nth_error D k = Some v -> d <= pf b v -> resid vals1 f1 ->
  (forall k' v' a j x, (k' <= k)%nat -> nth_error D k' = Some v' -> entry a v' j -> nth_error vals j = Some x -> x <= c a v' - f1 a v') ->
  exists vals2 f2, push h B fuel t buf (parents b) d v vals1 = Some vals2 /\ resid vals2 f2 /\
    forall x, (x < n)%nat -> sumn n (f2 x) = sumn n (f1 x) + (if (x =? source)%nat then d else 0) - (if (x =? v)%nat then d else 0).
Proof.
  destruct HT as (ND & DI & DT). induction fuel as [|fuel IH]; intros k v vals1 f1 Hf Ek Hv R G; [lia|].
  assert (Lv : (v < n)%nat) by (apply DI; eapply nth_error_In; eauto).
  cbn [push]. rewrite (nth_lt_some _ _ 0) by lia. change (nth v (parents b) 0) with (par b v). cbn [bind].
  destruct (Nat.eq_dec v source) as [->|Ns].
  - rewrite Hpar. cbn [Z.ltb Z.compare]. exists vals1, f1. split; [reflexivity|]. split; [exact R|]. intros x _. destruct (x =? source)%nat; lia.
  - destruct (DT _ _ Ek) as [E|(k' & p & j & x & Lk & Ep & Pv & En & Ex & X1 & X2)]; [congruence|]. rewrite Pv. destruct (Z.ltb_spec (Z.of_nat p) 0); [lia|]. rewrite Nat2Z.id.
    assert (Npv : p <> v). { intros ->. assert (k' = k); [|lia]. eapply (proj1 (NoDup_nth_error D) ND); [eapply nth_error_some_lt; eauto|congruence]. }
    destruct (Nrev _ _ _ En) as (j' & En'). rewrite (Hid _ _ _ En). cbn [bind]. rewrite (Hid _ _ _ En'). cbn [bind]. rewrite (r_val _ _ R _ _ _ En). cbn [bind].
    destruct (upd_some vals1 j (c p v - f1 p v - d)) as [vals2 U1]; [eapply nth_error_some_lt, (r_val _ _ R _ _ _ En)|]. rewrite U1. cbn [bind].
    assert (Njj : j' <> j) by (intros ->; destruct (entry_pos _ _ _ _ _ En En'); congruence).
    rewrite (upd_nth_neq _ _ _ _ _ U1) by auto. rewrite (r_val _ _ R _ _ _ En'). cbn [bind].
    destruct (upd_some vals2 j' (c v p - f1 v p + d)) as [vals3 U2]; [rewrite (upd_length _ _ _ _ U1); eapply nth_error_some_lt, (r_val _ _ R _ _ _ En')|]. rewrite U2. cbn [bind].
    assert (Gx : x <= c p v - f1 p v) by (eapply (G k); eauto).
    assert (R2 : resid vals3 (bump f1 p v d)) by (eapply resid_bump; eauto; lia).
    destruct (IH k' p vals3 (bump f1 p v d)) as (vals4 & f4 & P4 & R4 & N4); [lia|exact Ep|lia|exact R2| |].
    + intros k2 v2 a i y L2 E2 Ea Ey. assert (v2 <> v). { intros ->. assert (k2 = k); [|lia]. eapply (proj1 (NoDup_nth_error D) ND); [eapply nth_error_some_lt; eauto|congruence]. }
      assert (Q : y <= c a v2 - f1 a v2) by (eapply (G k2); eauto; lia). unfold bump. destruct (Nat.eqb_spec a p), (Nat.eqb_spec v2 v), (Nat.eqb_spec a v), (Nat.eqb_spec v2 p); cbn; try lia; congruence.
    + exists vals4, f4. split; [exact P4|]. split; [exact R4|]. intros y Ly. rewrite (N4 y Ly). rewrite bump_net; [|auto|eapply Nin; eauto|auto]. lia.
Qed.
End P.

Lemma resid_flow vals f : resid vals f -> (forall u, (u < n)%nat -> u <> source -> u <> sink -> sumn n (f u) = 0) -> is_flow n c source sink f.
Proof.
  intros R N. split; [apply (r_skew _ _ R)|]. split; [|exact N]. intros u v Lu Lv. destruct (entry_dec u v) as [[j E]|E]; [apply (r_pos _ _ R _ _ _ E)|].
  rewrite (proj2 (Hcap u v) E). destruct (Z.eq_dec (f u v) 0) as [->|Nz]; [lia|]. destruct (r_sup _ _ R _ _ Nz) as (j & En). destruct (E _ En).
Qed.
Lemma cap_pos u v : 0 <= c u v.
Proof.
  destruct (entry_dec u v) as [[j E]|E]; [|rewrite (proj2 (Hcap u v) E); lia]. pose proof (proj1 (Hcap u v) _ E) as Q. destruct Hnet as (_ & _ & _ & _ & _ & F). rewrite Forall_forall in F. apply F. eapply nth_error_In; eauto.
Qed.
Lemma resid_zero : resid vals0 (fun _ _ => 0).
Proof.
  split; [apply Nvals| | | |]; try lia.
  - intros u v j E. rewrite (proj1 (Hcap u v) _ E). f_equal. lia.
  - intros u v j E. apply cap_pos.
Qed.
(** the state between searches *)
Definition fi (vals : list Z) (res : Z) (f : nat -> nat -> Z) : Prop :=
  resid vals f /\ (forall u, (u < n)%nat -> u <> source -> u <> sink -> sumn n (f u) = 0) /\ sumn n (f source) = res.
Lemma fi_zero : fi vals0 0 (fun _ _ => 0).
Proof. split; [apply resid_zero|]. split; [intros; apply sumn_zero; auto|apply sumn_zero; auto]. Qed.
Lemma fi_bound vals res f : fi vals res f -> res <= sumn n (c source).
Proof. intros (R & N & <-). apply sumn_le. intros i Li. apply (resid_flow _ _ R N); auto. Qed.

Lemma find_inv (launch : csr -> list Z -> nat -> bst -> bst -> Prop) vals ps k b r :
  (forall x y, launch m vals sink x y -> launch_any m vals sink x y) -> length vals = length (cols m) -> length ps = n ->
  find_run launch m vals top source sink ps k b r -> inv m vals source top b (enter m) /\ (k <= 2 * n - 1)%nat.
Proof.
  intros HL Lv Lp (b0 & E0 & L & _). destruct (top_inv m vals source top Nptrs Lv Hs Htop ps b0 Lp E0) as (I0 & P0).
  destruct (find_any m vals source sink top Nptrs Ncol Lv Hs k b0 b (find_mono _ _ _ _ _ HL L) I0). split; [auto|lia].
Qed.
(** one augmentation *)
Lemma augment (launch : csr -> list Z -> nat -> bst -> bst -> Prop) vals res f ps k b x :
  (forall x y, launch m vals sink x y -> launch_any m vals sink x y) -> fi vals res f -> length ps = n ->
  find_run launch m vals top source sink ps k b true -> nth_error (pflow b) sink = Some x ->
  exists vals' f', push h B (S n) t buf (parents b) x sink vals = Some vals' /\ fi vals' (res + x) f' /\ 1 <= x /\ length (parents b) = n.
Proof.
  intros HL (R & N & V) Lp F Ex. destruct (find_inv _ _ _ _ _ _ HL (r_len _ _ R) Lp F) as (I & _).
  destruct I as ((_ & _ & L3 & _) & (_ & Sp & _) & _ & _ & _ & _ & (D & T)). destruct F as (b0 & _ & _ & x' & Ex' & Ht). assert (x' = x) by congruence. subst x'. symmetry in Ht. apply Z.ltb_lt in Ht.
  assert (Px : pf b sink = x) by (apply nth_some; auto). pose proof T as (ND & DI & _). assert (Is : In sink D) by (apply DI; split; [auto|lia]). apply In_nth_error in Is as (k0 & Ek0).
  assert (Lk : (k0 < S n)%nat). { apply nth_error_some_lt in Ek0. assert (length D <= n)%nat; [|lia]. rewrite <- (seq_length n 0). apply NoDup_incl_length; [exact ND|]. intros v Iv. apply in_seq. apply DI in Iv. lia. }
  destruct (push_ok vals b D x T Sp L3 Ht (S n) k0 sink vals f Lk Ek0 ltac:(lia) R) as (vals' & f' & P & R' & N').
  - intros k' v' a j y _ _ En Ey. rewrite (r_val _ _ R _ _ _ En) in Ey. inversion Ey. lia.
  - exists vals', f'. split; [exact P|]. split; [|split; [lia|exact L3]]. split; [exact R'|]. split.
    + intros u Lu N1 N2. rewrite (N' u Lu), (N u Lu N1 N2). destruct (Nat.eqb_spec u source), (Nat.eqb_spec u sink); try congruence. lia.
    + rewrite (N' source Hs), Nat.eqb_refl, V. destruct (Nat.eqb_spec source sink); [congruence|lia].
Qed.
(** the loop *)
Lemma loop_ok (launch : csr -> list Z -> nat -> bst -> bst -> Prop) : (forall vals x y, length vals = length (cols m) -> launch m vals sink x y -> launch_any m vals sink x y) ->
  forall k ps vals res r, flow_loop h B launch m top source sink t buf k ps vals res r -> forall f, fi vals res f -> length ps = n ->
  exists res' vals' f' ps' kf b, r = Some (res', vals') /\ fi vals' res' f' /\ Z.of_nat k + res <= res' /\ length ps' = n /\ find_run launch m vals' top source sink ps' kf b false.
Proof.
  intros HL k ps vals res r L. induction L as [k ps vals res b F|k kf ps vals res b x vals' r F Ex P L IH|k ps vals res b x F Ex P]; intros f FI Lp.
  - exists res, vals, f, ps, k, b. split; [auto|]. split; [auto|]. split; [lia|]. split; auto.
  - destruct (augment launch vals res f ps _ b x (fun _ _ => HL _ _ _ (r_len _ _ (proj1 FI))) FI Lp F Ex) as (v1 & f1 & P1 & F1 & X1 & L1). assert (v1 = vals') by congruence. subst v1.
    destruct (IH f1 F1 L1) as (r2 & v2 & f2 & ps2 & k2 & b2 & E & F2 & K2 & Q). exists r2, v2, f2, ps2, k2, b2. split; [auto|]. split; [auto|]. split; [lia|exact Q].
  - destruct (augment launch vals res f ps _ b x (fun _ _ => HL _ _ _ (r_len _ _ (proj1 FI))) FI Lp F Ex) as (v1 & f1 & P1 & _). congruence.
Qed.
Lemma apart_any' : forall vals x y, length vals = length (cols m) -> launch_apart m vals sink x y -> launch_any m vals sink x y.
Proof. intros vals x y Lv. apply (apart_any m vals source sink Nptrs Lv Hs). Qed.
(** the last search of a run without overlap shows a saturated cut *)
Lemma last_cut vals res f ps k b : fi vals res f -> length ps = n -> find_run launch_apart m vals top source sink ps k b false ->
  exists side, side source = true /\ side sink = false /\ res = cut n c side.
Proof.
  intros (R & N & V) Lp F. pose proof (r_len _ _ R) as Lv. destruct (find_inv launch_apart vals ps k b false (fun x y => apart_any' vals x y Lv) Lv Lp F) as ((_ & _ & _ & Hz & _) & _).
  destruct (find_apart m vals source sink top ps k b false Htop F Hz eq_refl) as (Vs & Vk & Cl). exists (vis b). split; [exact Vs|]. split; [exact Vk|]. rewrite <- V.
  apply (saturated n c source sink f (vis b) Hs Vs Vk (resid_flow _ _ R N)). intros u v Lu Lw Vu Vv.
  destruct (entry_dec u v) as [[j E]|E].
  - pose proof (r_val _ _ R _ _ _ E) as Q. pose proof (r_pos _ _ R _ _ _ E). destruct (Z.eq_dec (f u v) (c u v)) as [|Ne]; [auto|]. rewrite (Cl u Vu v j _ E Q) in Vv by lia. discriminate.
  - rewrite (proj2 (Hcap u v) E). destruct (Z.eq_dec (f u v) 0) as [|Nz]; [auto|]. destruct (r_sup _ _ R _ _ Nz) as (j & En). destruct (E _ En).
Qed.
(** runs without overlap exist *)
Lemma find_exists vals ps : length vals = length (cols m) -> length ps = n -> exists k b r, find_run launch_apart m vals top source sink ps k b r.
Proof.
  intros Lv Lp. destruct (top_ex m vals source top Nptrs Lv Hs ps Lp) as (b0 & E0). destruct (top_inv m vals source top Nptrs Lv Hs Htop ps b0 Lp E0) as (I0 & _).
  destruct (find_ex m vals source sink top Nptrs Nptr Ncol Lv Hs _ b0 (le_n _) I0) as (k & b & L).
  destruct (find_any m vals source sink top Nptrs Ncol Lv Hs k b0 b (find_mono _ _ _ _ _ (fun x y => apart_any' vals x y Lv) L) I0) as (((_ & _ & _ & L4) & _) & _).
  exists k, b, (0 <? pf b sink), b0. split; [exact E0|]. split; [exact L|]. exists (pf b sink). split; [apply nth_lt_some; lia|reflexivity].
Qed.
Lemma loop_ex N : forall vals res f ps, (Z.to_nat (sumn n (c source) - res) <= N)%nat -> fi vals res f -> length ps = n -> exists k r, flow_loop h B launch_apart m top source sink t buf k ps vals res r.
Proof.
  induction N as [|N IH]; intros vals res f ps M FI Lp; pose proof (r_len _ _ (proj1 FI)) as Lv; destruct (find_exists vals ps Lv Lp) as (k & b & r & F); destruct r; try (exists O, (Some (res, vals)); econstructor; exact F).
  - assert (Q := F). destruct Q as (_ & _ & _ & x & Ex & _). destruct (augment launch_apart vals res f ps _ b x (fun x y => apart_any' vals x y Lv) FI Lp F Ex) as (v1 & f1 & P1 & F1 & X1 & L1). pose proof (fi_bound _ _ _ F1). lia.
  - assert (Q := F). destruct Q as (_ & _ & _ & x & Ex & _). destruct (augment launch_apart vals res f ps _ b x (fun x y => apart_any' vals x y Lv) FI Lp F Ex) as (v1 & f1 & P1 & F1 & X1 & L1). pose proof (fi_bound _ _ _ F1).
    destruct (IH v1 (res + x) f1 (parents b) ltac:(lia) F1 L1) as (k2 & r & L). exists (S k2), r. econstructor; eauto.
Qed.
End A.
