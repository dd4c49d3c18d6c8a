From Coq Require Import Arith List Lia Bool.
From Verif Require Import CpModel CpSpec.
Import ListNotations.

Section Proofs.
Context {V : Type}.
Implicit Types (s : @state V) (h : list (option V)) (e : vars).

Definition put h a (x : option V) := firstn a h ++ x :: skipn (S a) h.
Lemma put_nth h a x k : a < length h -> nth_error (put h a x) k = if Nat.eq_dec k a then Some x else nth_error h k.
Proof.
  unfold put. revert a k. induction h as [|y h IH]; intros a k L; cbn in L; [lia|].
  destruct a as [|a], k as [|k]; try reflexivity.
  specialize (IH a k ltac:(lia)).
  change (nth_error (firstn a h ++ x :: skipn (S a) h) k = if Nat.eq_dec (S k) (S a) then Some x else nth_error h k).
  rewrite IH. destruct (Nat.eq_dec k a), (Nat.eq_dec (S k) (S a)); try lia; reflexivity.
Qed.
Lemma put_length h a x : a < length h -> length (put h a x) = length h.
Proof. intros L. unfold put. rewrite app_length, firstn_length. cbn [length]. rewrite skipn_length. lia. Qed.
Lemma put_app h a x y : a < length h -> put (h ++ [y]) a x = put h a x ++ [y].
Proof.
  intros L. unfold put. rewrite firstn_app, skipn_app.
  replace (a - length h) with 0 by lia. replace (S a - length h) with 0 by lia. cbn. rewrite app_nil_r, <- app_assoc. reflexivity.
Qed.
Lemma snoc_nth h (x : option V) k : nth_error (h ++ [x]) k = if Nat.eq_dec k (length h) then Some x else nth_error h k.
Proof.
  destruct (Nat.eq_dec k (length h)) as [->|N]; [rewrite nth_error_app2, Nat.sub_diag by lia; reflexivity|].
  destruct (Nat.lt_ge_cases k (length h)); [apply nth_error_app1; lia|].
  rewrite nth_error_app2 by lia. rewrite (proj2 (nth_error_None h k)) by lia.
  apply nth_error_None. cbn. lia.
Qed.

Definition inv s : Prop :=
  (forall i j a, owns s i a -> owns s j a -> i = j) /\ (forall i a, owns s i a -> live s a) /\ (forall a, live s a -> exists i, owns s i a).
Lemma inv_lt s i a : inv s -> owns s i a -> exists v, nth_error (heap s) a = Some (Some v) /\ a < length (heap s).
Proof. intros (_ & H & _) O. destruct (H _ _ O) as (v & E). exists v. split; auto. apply nth_error_Some. congruence. Qed.

(** Same variables and same heap, pointwise. *)
Lemma inv_ext s s' : (forall k, env s k = env s' k) -> heap s = heap s' -> inv s -> inv s'.
Proof.
  unfold inv, owns, live. intros E H (A & B & C). rewrite <- H. repeat split; intros.
  - rewrite <- E in *. eauto.
  - rewrite <- E in *. eauto.
  - destruct (C _ H0) as (i & Q). exists i. rewrite <- E. auto.
Qed.
Lemma look_ext s s' k : env s k = env s' k -> heap s = heap s' -> look s k = look s' k.
Proof. unfold look. intros -> ->. reflexivity. Qed.

Definition pv (p : option (option nat)) : @view V := match p with None => Absent | _ => Nothing end.
Definition idle (p : option (option nat)) := match p with Some (Some _) => False | _ => True end.

Lemma set_idle s i p : inv s -> idle (env s i) -> idle p ->
  inv (State (bind (env s) i p) (heap s)) /\ forall k, look (State (bind (env s) i p) (heap s)) k = upd (look s) i (pv p) k.
Proof.
  intros (A & B & C) I P. split.
  - unfold inv, owns, live in *. cbn. unfold bind. repeat split.
    + intros k j a. destruct (Nat.eq_dec k i), (Nat.eq_dec j i); subst; intros X Y; try (rewrite X in P; contradiction);
        try (rewrite Y in P; contradiction); eauto.
    + intros k a. destruct (Nat.eq_dec k i); intros X; [rewrite X in P; contradiction|eauto].
    + intros a L. destruct (C a L) as (k & Q). exists k. destruct (Nat.eq_dec k i); [subst; rewrite Q in I; contradiction|auto].
  - intros k. unfold look, upd, bind; cbn. destruct (Nat.eq_dec k i); [|reflexivity]. destruct p as [[?|]|]; cbn in *; tauto.
Qed.
Lemma set_alloc s i v : inv s -> idle (env s i) ->
  let s' := State (bind (env s) i (Some (Some (length (heap s))))) (heap s ++ [Some v]) in
  inv s' /\ forall k, look s' k = upd (look s) i (Holds v) k.
Proof.
  intros J I. pose proof (fun i a => inv_lt s i a J) as LT. destruct J as (A & B & C). cbn. split.
  - unfold inv, owns, live in *. cbn. unfold bind. repeat split.
    + intros k j a. destruct (Nat.eq_dec k i), (Nat.eq_dec j i); subst; intros X Y; auto.
      * injection X as <-. destruct (LT _ _ Y) as (? & ? & ?). lia.
      * injection Y as <-. destruct (LT _ _ X) as (? & ? & ?). lia.
      * eauto.
    + intros k a. rewrite snoc_nth. destruct (Nat.eq_dec k i); intros X.
      * injection X as <-. destruct (Nat.eq_dec _ _); [eauto|lia].
      * destruct (Nat.eq_dec a (length (heap s))); eauto.
    + intros a. rewrite snoc_nth. destruct (Nat.eq_dec a (length (heap s))) as [->|N]; intros L.
      * exists i. destruct (Nat.eq_dec i i); congruence.
      * destruct (C a L) as (k & Q). exists k. destruct (Nat.eq_dec k i); [subst; rewrite Q in I; contradiction|auto].
  - intros k. unfold look, upd, bind; cbn. destruct (Nat.eq_dec k i).
    + rewrite snoc_nth. destruct (Nat.eq_dec _ _); [reflexivity|lia].
    + destruct (env s k) as [[a|]|] eqn:E; auto. rewrite snoc_nth. destruct (LT k a E) as (? & ? & ?).
      destruct (Nat.eq_dec a (length (heap s))); [lia|reflexivity].
Qed.
Lemma set_free s i a p : inv s -> env s i = Some (Some a) -> idle p ->
  let s' := State (bind (env s) i p) (put (heap s) a None) in
  free (heap s) (Some a) = Some (put (heap s) a None) /\ inv s' /\ forall k, look s' k = upd (look s) i (pv p) k.
Proof.
  intros J O P. pose proof (inv_lt s i a J O) as (v & E & L). destruct J as (A & B & C). cbn. split; [rewrite E; reflexivity|]. split.
  - unfold inv, owns, live in *. cbn. unfold bind. repeat split.
    + intros k j b. destruct (Nat.eq_dec k i), (Nat.eq_dec j i); subst; intros X Y; try (rewrite X in P; contradiction);
        try (rewrite Y in P; contradiction); eauto.
    + intros k b. rewrite put_nth by auto. destruct (Nat.eq_dec k i); intros X; [rewrite X in P; contradiction|].
      destruct (Nat.eq_dec b a); [subst; exfalso; eauto|eauto].
    + intros b. rewrite put_nth by auto. destruct (Nat.eq_dec b a); intros Q; [destruct Q; congruence|].
      destruct (C b Q) as (k & R). exists k. destruct (Nat.eq_dec k i); [subst; congruence|auto].
  - intros k. unfold look, upd, bind; cbn. destruct (Nat.eq_dec k i).
    + destruct p as [[?|]|]; cbn in *; tauto.
    + destruct (env s k) as [[b|]|] eqn:Q; auto. rewrite put_nth by auto.
      destruct (Nat.eq_dec b a); [subst; exfalso; unfold owns in A; eauto|reflexivity].
Qed.
(** Either way of emptying a variable. *)
Definition after h (q : option nat) := match q with Some a => put h a None | None => h end.
Lemma clear s i q p : inv s -> env s i = Some q -> idle p ->
  let s' := State (bind (env s) i p) (after (heap s) q) in
  free (heap s) q = Some (after (heap s) q) /\ inv s' /\ forall k, look s' k = upd (look s) i (pv p) k.
Proof.
  intros J O P. destruct q as [a|]; [apply set_free; auto|]. cbn. split; auto. apply set_idle; auto. rewrite O. exact I.
Qed.
Lemma set_swap s i j : inv s ->
  let s' := State (bind (bind (env s) i (env s j)) j (env s i)) (heap s) in
  inv s' /\ forall k, look s' k = upd (upd (look s) i (look s j)) j (look s i) k.
Proof.
  intros (A & B & C). cbn. split.
  - unfold inv, owns, live in *. cbn. unfold bind. repeat split.
    + intros k l a. destruct (Nat.eq_dec k j), (Nat.eq_dec l j), (Nat.eq_dec k i), (Nat.eq_dec l i); subst; intros X Y; auto;
        try (specialize (A _ _ _ X Y); congruence).
    + intros k a. destruct (Nat.eq_dec k j), (Nat.eq_dec k i); eauto.
    + intros a L. destruct (C a L) as (k & Q).
      destruct (Nat.eq_dec k i) as [->|N]; [exists j; destruct (Nat.eq_dec j j); congruence|].
      destruct (Nat.eq_dec k j) as [->|M].
      * exists i. destruct (Nat.eq_dec i j); [congruence|]. destruct (Nat.eq_dec i i); congruence.
      * exists k. destruct (Nat.eq_dec k j), (Nat.eq_dec k i); congruence.
  - intros k. unfold look, upd, bind; cbn. destruct (Nat.eq_dec k j); [reflexivity|]. destruct (Nat.eq_dec k i); reflexivity.
Qed.
Lemma free_snoc h q x : free h q = Some (after h q) -> free (h ++ [x]) q = Some (after h q ++ [x]) /\ length (after h q) = length h.
Proof.
  destruct q as [a|]; cbn; auto. destruct (nth_error h a) as [[v|]|] eqn:E; try discriminate. intros _.
  assert (L : a < length h) by (apply nth_error_Some; congruence).
  rewrite nth_error_app1, E by auto. split; [f_equal; apply put_app; auto|apply put_length; auto].
Qed.
(** Replacing what a variable owns by a fresh object. *)
Lemma replace s i q v : inv s -> env s i = Some q ->
  exists h', free (heap s ++ [Some v]) q = Some h' /\
    let s' := State (bind (env s) i (Some (Some (length (heap s))))) h' in
    inv s' /\ forall k, look s' k = upd (look s) i (Holds v) k.
Proof.
  intros J O. destruct (clear s i q (Some None) J O I) as (F & J1 & L1).
  destruct (free_snoc _ _ (Some v) F) as (F2 & LN). exists (after (heap s) q ++ [Some v]). split; auto.
  destruct (set_alloc _ i v J1) as (J2 & L2); [cbn; unfold bind; destruct (Nat.eq_dec i i); [exact I|congruence]|].
  cbn in J2, L2. rewrite LN in J2, L2. cbn. split.
  - revert J2. apply inv_ext; auto. intros k. cbn. unfold bind. destruct (Nat.eq_dec k i); reflexivity.
  - intros k. etransitivity; [|etransitivity; [apply L2|]].
    + apply look_ext; auto. cbn. unfold bind. destruct (Nat.eq_dec k i); reflexivity.
    + pose proof (L1 k) as L1k. unfold upd in *. destruct (Nat.eq_dec k i) as [|N]; auto.
Qed.
Lemma look_case s i : inv s ->
  match env s i with
  | None => look s i = Absent
  | Some None => look s i = Nothing
  | Some (Some a) => exists v, nth_error (heap s) a = Some (Some v) /\ look s i = Holds v
  end.
Proof.
  intros J. unfold look. destruct (env s i) as [[a|]|] eqn:E; auto. destruct (inv_lt s i a J E) as (v & Q & _). exists v. rewrite Q. auto.
Qed.
Lemma write_inv s i a v : inv s -> env s i = Some (Some a) ->
  let s' := State (env s) (put (heap s) a (Some v)) in inv s' /\ forall k, look s' k = upd (look s) i (Holds v) k.
Proof.
  intros J O. destruct (inv_lt s i a J O) as (w & E & L). destruct J as (A & B & C). cbn. split.
  - unfold inv, owns, live in *. cbn. repeat split; eauto.
    + intros k b X. rewrite put_nth by auto. destruct (Nat.eq_dec b a); eauto.
    + intros b. rewrite put_nth by auto. destruct (Nat.eq_dec b a); intros Q; subst; eauto.
  - intros k. unfold look, upd; cbn. destruct (Nat.eq_dec k i) as [->|N].
    + rewrite O, put_nth by auto. destruct (Nat.eq_dec a a); congruence.
    + destruct (env s k) as [[b|]|] eqn:Q; auto. rewrite put_nth by auto. destruct (Nat.eq_dec b a); auto. subst. exfalso. apply N. eapply A; eauto.
Qed.
(** Moving into an empty or new variable. *)
Lemma move_inv s i j p : inv s -> i <> j -> idle (env s i) -> env s j = Some p ->
  let s' := State (bind (bind (env s) j (Some None)) i (Some p)) (heap s) in
  inv s' /\ forall k, look s' k = upd (upd (look s) j Nothing) i (look s j) k.
Proof.
  intros J N E O. destruct (set_idle s i (Some None) J E I) as (J1 & L1). cbn in L1.
  destruct (set_swap _ i j J1) as (J2 & L2). cbn in J2, L2. cbn. split.
  - revert J2. apply inv_ext; auto. intros k. cbn. unfold bind.
    repeat match goal with |- context [Nat.eq_dec ?x ?y] => destruct (Nat.eq_dec x y) end; congruence.
  - intros k. etransitivity; [|etransitivity; [apply L2|]].
    + apply look_ext; auto. cbn. unfold bind.
      repeat match goal with |- context [Nat.eq_dec ?x ?y] => destruct (Nat.eq_dec x y) end; congruence.
    + unfold upd. rewrite !L1. unfold upd.
      repeat match goal with |- context [Nat.eq_dec ?x ?y] => destruct (Nat.eq_dec x y) end; congruence.
Qed.

Definition agree (r : @outcome V) (w : option (nat -> @view V)) : Prop :=
  match r, w with
  | Good s', Some w' => inv s' /\ forall k, look s' k = w' k
  | Bad, None => True
  | _, _ => False
  end.
Lemma step_agree s o : inv s -> agree (step s o) (ideal (look s) o).
Proof.
  intros J. destruct o as [i v|i|i j|i j|i j|i j|i v|i|i v|i j|i]; cbn [step ideal].
  - pose proof (look_case s i J) as K. destruct (env s i) as [[a|]|] eqn:E; [destruct K as (? & ? & K)| |]; rewrite K; cbn; auto.
    apply set_alloc; auto. rewrite E; exact I.
  - pose proof (look_case s i J) as K. destruct (env s i) as [[a|]|] eqn:E; [destruct K as (? & ? & K)| |]; rewrite K; cbn; auto.
    apply (set_idle s i (Some None)); auto. rewrite E; exact I. exact I.
  - pose proof (look_case s i J) as K. pose proof (look_case s j J) as M.
    destruct (env s i) as [[a|]|] eqn:E; [destruct K as (? & ? & K)| |]; rewrite K;
    (destruct (env s j) as [[b|]|] eqn:F; [destruct M as (? & Q & M)| |]; rewrite M; cbn; auto).
    rewrite Q. cbn. apply set_alloc; auto. rewrite E; exact I.
  - pose proof (look_case s i J) as K. pose proof (look_case s j J) as M.
    destruct (env s i) as [q|] eqn:E.
    + assert (P : present (look s i) = true) by (destruct q; [destruct K as (? & ? & K)|]; rewrite K; reflexivity). rewrite P.
      destruct (env s j) as [[b|]|] eqn:F; [destruct M as (v & Q & M)| |]; rewrite M; cbn [deref alloc]; try exact I.
      rewrite Q. cbn [alloc]. destruct (replace s i q v J E) as (h' & F' & G). rewrite F'. exact G.
    + rewrite K. destruct (look s j); cbn; auto.
  - pose proof (look_case s i J) as K. pose proof (look_case s j J) as M.
    destruct (env s i) as [q|] eqn:E.
    + assert (P : absent (look s i) = false) by (destruct q; [destruct K as (? & ? & K)|]; rewrite K; reflexivity). rewrite P. exact I.
    + destruct (env s j) as [p|] eqn:F.
      * assert (P : present (look s j) = true) by (destruct p; [destruct M as (? & ? & M)|]; rewrite M; reflexivity). rewrite P, K. cbn [absent andb].
        apply move_inv; auto; [congruence|rewrite E; exact I].
      * rewrite M, K. exact I.
  - pose proof (look_case s i J) as K. pose proof (look_case s j J) as M.
    destruct (env s i) as [q|] eqn:E.
    + assert (P : present (look s i) = true) by (destruct q; [destruct K as (? & ? & K)|]; rewrite K; reflexivity). rewrite P.
      destruct (env s j) as [p|] eqn:F; [|rewrite M; exact I].
      assert (P2 : present (look s j) = true) by (destruct p; [destruct M as (? & ? & M)|]; rewrite M; reflexivity). rewrite P2. cbn [andb].
      destruct (Nat.eq_dec i j) as [->|N].
      * replace (bind (env s) j (Some None) j) with (Some (@None nat)) by (unfold bind; destruct (Nat.eq_dec j j); congruence).
        cbn. split.
        { revert J. apply inv_ext; auto. intros k. cbn. unfold bind. destruct (Nat.eq_dec k j); congruence. }
        { intros k. transitivity (look s k); [apply look_ext; auto; cbn; unfold bind; destruct (Nat.eq_dec k j); congruence|].
          unfold upd. destruct (Nat.eq_dec k j); congruence. }
      * replace (bind (env s) j (Some None) i) with (Some q) by (unfold bind; destruct (Nat.eq_dec i j); congruence).
        destruct (clear s i q (Some None) J E I) as (FR & J1 & L1). rewrite FR. cbn in L1.
        destruct (move_inv _ i j p J1 N) as (J2 & L2); [cbn; unfold bind; destruct (Nat.eq_dec i i); [exact I|congruence]
          |cbn; unfold bind; destruct (Nat.eq_dec j i); congruence|]. cbn in J2, L2. cbn. split.
        { revert J2. apply inv_ext; auto. intros k. cbn. unfold bind. destruct (Nat.eq_dec k i), (Nat.eq_dec k j); congruence. }
        { intros k. etransitivity; [|etransitivity; [apply L2|]].
          - apply look_ext; auto. cbn. unfold bind. destruct (Nat.eq_dec k i), (Nat.eq_dec k j); congruence.
          - unfold upd. rewrite !L1. unfold upd.
            repeat match goal with |- context [Nat.eq_dec ?x ?y] => destruct (Nat.eq_dec x y) end; congruence. }
    + rewrite K. exact I.
  - pose proof (look_case s i J) as K. destruct (env s i) as [[a|]|] eqn:E; [destruct K as (? & Q & K)| |]; rewrite K; cbn; auto.
    rewrite Q. cbn. apply write_inv; auto.
  - pose proof (look_case s i J) as K. destruct (env s i) as [q|] eqn:E; [|rewrite K; exact I].
    assert (P : present (look s i) = true) by (destruct q; [destruct K as (? & ? & K)|]; rewrite K; reflexivity). rewrite P.
    destruct (clear s i q (Some None) J E I) as (FR & J1 & L1). rewrite FR. cbn. auto.
  - pose proof (look_case s i J) as K. destruct (env s i) as [q|] eqn:E; [|rewrite K; exact I].
    assert (P : present (look s i) = true) by (destruct q; [destruct K as (? & ? & K)|]; rewrite K; reflexivity). rewrite P.
    cbn [alloc]. destruct (replace s i q v J E) as (h' & F' & G). rewrite F'. exact G.
  - pose proof (look_case s i J) as K. pose proof (look_case s j J) as M.
    destruct (env s i) as [q|] eqn:E; [|rewrite K; exact I].
    assert (P : present (look s i) = true) by (destruct q; [destruct K as (? & ? & K)|]; rewrite K; reflexivity). rewrite P.
    destruct (env s j) as [p|] eqn:F; [|rewrite M; exact I].
    assert (P2 : present (look s j) = true) by (destruct p; [destruct M as (? & ? & M)|]; rewrite M; reflexivity). rewrite P2. cbn [andb agree].
    rewrite <- E, <- F. apply set_swap; auto.
  - pose proof (look_case s i J) as K. destruct (env s i) as [q|] eqn:E; [|rewrite K; exact I].
    assert (P : present (look s i) = true) by (destruct q; [destruct K as (? & ? & K)|]; rewrite K; reflexivity). rewrite P.
    destruct (clear s i q None J E I) as (FR & J1 & L1). rewrite FR. cbn. auto.
Qed.
Lemma inv_init : inv init.
Proof.
  unfold inv, owns, live, init; cbn. split; [discriminate|]. split; [discriminate|]. intros [|b] (v & E); discriminate.
Qed.
Lemma run_inv l s s' : inv s -> run s l = Good s' -> inv s'.
Proof.
  revert s. induction l as [|o l IH]; cbn; intros s J R; [congruence|].
  pose proof (step_agree s o J) as A. destruct (step s o); [|discriminate].
  destruct (ideal _ _); [|contradiction]. destruct A as (A & _). exact (IH _ A R).
Qed.
End Proofs.
