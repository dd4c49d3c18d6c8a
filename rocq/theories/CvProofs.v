(** C97: lemmas. *)
From Verif Require Import Prelude HashModel ParkModel ParkSpec ParkProofs ParkProofs2 CvModel CvSpec.

Lemma set_same f t p : set f t p t = p.
Proof. unfold set. now rewrite Nat.eqb_refl. Qed.
Lemma set_other f t p u : u <> t -> set f t p u = f u.
Proof. intros N. unfold set. now apply Nat.eqb_neq in N as ->. Qed.

(** walking the queue of one condition variable *)
Section Walk.
Variables (lot : nat) (addr : N).
Lemma walk_unpark all q : qcount q <> 0%Z -> walk lot addr all q = unpark (if all then wake_all else wake_one) lot addr q tt.
Proof. intros H. unfold walk, unpark. apply Z.eqb_neq in H as ->. reflexivity. Qed.
Lemma walk_nil all q : holds q [] -> walk lot addr all q = Ret (q, tt).
Proof. intros (C & _). unfold walk. inversion C as [E|]; subst. reflexivity. Qed.
Definition ours (q : queue) (l : list nat) : Prop := Forall (parked_on q lot addr) l.
Lemma walk_one q a l : holds q (a :: l) -> ours q (a :: l) -> exists q', walk lot addr false q = Ret (q', tt) /\ holds q' (a :: tl l) /\ ours q' (a :: tl l) /\ signalled q' a /\ qcount q' = qcount q.
Proof.
  intros H O. pose proof H as (C & N & Z). cbn in Z. rewrite walk_unpark by lia. inversion O as [|? ? (n & Hn & K & M) O']; subst.
  destruct (unpark_first wake_one lot addr q [] a l tt n H ltac:(intros ? []) Hn K M) as (f & _ & E). rewrite E. cbn [wake_one removes breaks].
  destruct (remove_wake q _ [] a l n H eq_refl Hn) as (q' & E1 & H1 & C1 & _ & _ & (n' & Hn' & S' & K' & M' & _) & _ & OT). rewrite E1. cbn [rbind].
  exists q'. split; [reflexivity|]. split; [exact H1|]. split; [|split; [exists n'; auto|exact C1]]. constructor; [exists n'; repeat split; congruence|].
  apply Forall_forall. intros c Hc. assert (Hl : In c l) by (destruct l; [easy|now right]).
  assert (c <> a) by (intros ->; inversion N; contradiction).
  assert (hd_error l <> Some c) by (destruct l as [|b l]; [easy|]; cbn in *; intros [= ->]; inversion N as [|? ? _ N2]; inversion N2; contradiction).
  rewrite Forall_forall in O'. destruct (O' c Hl) as (m & Hm & R). exists m. split; [|exact R]. unfold cell in *. rewrite OT by assumption. exact Hm.
Qed.
Lemma walk_all q a l q' : holds q (a :: l) -> ours q (a :: l) -> walk lot addr true q = Ret (q', tt) -> l = [] /\ holds q' [a] /\ ours q' [a] /\ signalled q' a /\ qcount q' = qcount q.
Proof.
  intros H O. pose proof H as (C & N & Z). cbn in Z. rewrite walk_unpark by lia. inversion O as [|? ? (n & Hn & K & M) O']; subst.
  destruct (unpark_first wake_all lot addr q [] a l tt n H ltac:(intros ? []) Hn K M) as (f & Lf & E). rewrite E. cbn [wake_all removes breaks].
  destruct (remove_wake q _ [] a l n H eq_refl Hn) as (q1 & E1 & H1 & C1 & _ & _ & (n' & Hn' & S' & K' & M' & _) & F1 & OT). rewrite E1. cbn [rbind].
  destruct l as [|b l].
  - cbn [hd_error]. assert (X : unpark_loop wake_all f lot (twang_mix64 addr) q1 None tt = Ret (q1, tt)) by (destruct f; reflexivity). rewrite X. intros [= <-].
    split; [reflexivity|]. split; [exact H1|]. split; [|split; [exists n'; auto|exact C1]]. constructor; [exists n'; repeat split; congruence|constructor].
  - destruct f as [|f]; [cbn in Lf; lia|]. cbn [hd_error unpark_loop]. rewrite (freed_ub q1 b) by (apply F1; reflexivity). discriminate.
Qed.
Lemma walk_all_last q a : holds q [a] -> ours q [a] -> walk lot addr true q <> Ub.
Proof.
  intros H O. pose proof H as (C & N & Z). cbn in Z. rewrite walk_unpark by lia. inversion O as [|? ? (n & Hn & K & M) O']; subst.
  destruct (unpark_first wake_all lot addr q [] a [] tt n H ltac:(intros ? []) Hn K M) as (f & Lf & E). rewrite E. cbn [wake_all removes breaks].
  destruct (remove_wake q _ [] a [] n H eq_refl Hn) as (q1 & E1 & _). rewrite E1. cbn [rbind hd_error]. destruct f; discriminate.
Qed.
Lemma insert_ours q l : chain (qmem q) (qlist q) l -> NoDup l -> (Z.of_nat (length l) + 1 <= qcount q)%Z -> ours q l -> let q' := fst (insert_head q (twang_mix64 addr) lot 0) in
  let a := snd (insert_head q (twang_mix64 addr) lot 0) in holds q' (a :: l) /\ ours q' (a :: l) /\ sleeping q' a /\ qcount q' = qcount q.
Proof.
  intros C N Z O. assert (H : holds (mkQ (qmem q) (qlist q) (qcount q - 1)) l) by (split; [exact C|split; [exact N|cbn; lia]]).
  destruct (insert_head (mkQ (qmem q) (qlist q) (qcount q - 1 + 1)) (twang_mix64 addr) lot 0) as [q1 a1] eqn:E.
  pose proof (holds_insert _ _ _ _ _ H _ _ E) as (_ & H' & _). unfold insert_head in *. cbn in E. injection E as <- <-. cbn [fst snd] in *.
  assert (P : forall m c, nth_error (qmem q) c = Some (Some m) -> nth_error (qmem q ++ [Some (mkNode (twang_mix64 addr) lot 0 false (qlist q))]) c = Some (Some m)).
  { intros m c Hc. rewrite nth_error_app1; [exact Hc|]. apply nth_error_Some. congruence. }
  assert (NW : nth_error (qmem q ++ [Some (mkNode (twang_mix64 addr) lot 0 false (qlist q))]) (length (qmem q)) = Some (Some (mkNode (twang_mix64 addr) lot 0 false (qlist q)))).
  { rewrite nth_error_app2, Nat.sub_diag by lia. reflexivity. }
  cbv zeta. cbn [qcount qmem qlist]. split; [|split; [|split; [|reflexivity]]].
  - destruct H' as (C' & N' & Z'). split; [exact C'|]. split; [exact N'|]. cbn in *. lia.
  - constructor; [eexists; split; [exact NW|split; reflexivity]|]. unfold ours in O. rewrite Forall_forall in *. intros c Hc. destruct (O c Hc) as (m & Hm & R). exists m. split; [apply P; exact Hm|exact R].
  - eexists. split; [exact NW|reflexivity].
Qed.
End Walk.

(** the mutex: whatever the modes *)
Lemma mutex_inv md lot addr evs s : exec md lot addr evs s -> owner None evs = Some (mtx (sh s)) /\ forall t, has_mutex s t -> mtx (sh s) = Some t.
Proof.
  assert (OA : forall evs o e r, owner o (evs ++ [e]) = Some r <-> exists m, owner o evs = Some m /\ owner m [e] = Some r).
  { induction evs0 as [|(t, l) evs0 IH]; intros o e r; [cbn; split; [intros H; exists o; auto|intros (m & [= <-] & H); exact H]|].
    cbn [app owner]. destruct l; try apply IH.
    - destruct o; [split; [discriminate|intros (m & H & _); discriminate]|apply IH].
    - destruct o; [|split; [discriminate|intros (m & H & _); discriminate]]. destruct (Nat.eqb t n); [apply IH|split; [discriminate|intros (m & H & _); discriminate]]. }
  induction 1 as [|evs s1 e s2 X (O & I) S]; [split; [reflexivity|intros t []]|].
  inversion S as [s t l sh' p' T E1 E2 E3]; subst.
  assert (K : owner (mtx (sh s1)) [(t, l)] = Some (mtx sh') /\ (forall u, u <> t -> mtx (sh s1) = Some u -> mtx sh' = Some u) /\
    (match p' with Out true | W1 | W2 | W2a | W2b | W3 _ | N1 true _ | NS true | N2 true _ | N3 true _ | N4 true _ => mtx sh' = Some t | _ => True end)).
  { pose proof (I t) as It. unfold has_mutex in It. inversion T as [sx G1 G2 G3 G4 G5|sx G2 G3 G4 G5|sx G1 G2 G3 G4 G5|sx G2 G3 G4 G5|sx G1 G2 G3 G4 G5|sx G2 G3 G4 G5|sx G2 G3 G4 G5|sx a G2 G3 G4 G5|sx a n0 G0 G1 G2 G3 G4 G5|sx a q' b G0 G1 G9 G2 G3 G4 G5|sx G1 G2 G3 G4 G5|sx h G2 G3 G4 G5|sx h G1 G2 G3 G4 G5|sx h b G1 G2 G3 G4 G5|sx h b G1 G2 G3 G4 G5|sx h G2 G3 G4 G5|sx h b G1 G2 G3 G4 G5|sx h b G1 G2 G3 G4 G5|sx h b G1 G2 G3 G4 G5|sx h b q' G1 G2 G3 G4 G5]; subst;
      rewrite <- ?G3 in It; cbn [mtx owner]; try (destruct h); try (destruct b); cbn [mtx]; rewrite ?Nat.eqb_refl;
      try (specialize (It Logic.I); rewrite It); try rewrite G1; cbn [owner]; rewrite ?Nat.eqb_refl; (split; [reflexivity|]); (split; [intros u N V; congruence|]); try exact Logic.I; try reflexivity; try congruence. }
  destruct K as (K1 & K2 & K3). split; [apply OA; eauto|]. intros u HU. cbn [sh]. unfold has_mutex in HU. cbn [thr] in HU. destruct (Nat.eq_dec u t) as [-> |N].
  - rewrite set_same in HU. destruct p' as [[|]| | | | | | | |[|]|[|]|[|]|[|]|[|]]; try destruct HU; exact K3.
  - rewrite set_other in HU by exact N. apply K2; [exact N|]. apply I. exact HU.
Qed.
