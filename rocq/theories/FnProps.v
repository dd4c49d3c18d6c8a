(* C55: zs::function is a value that owns its callable.

   Claim: a zs::function holds at most one callable; assigning, copying, moving,
   calling and destroying functions acts on those values as written, operator
   bool says whether there is one, every callable constructed is destroyed
   exactly once and none is used after its destruction.

   Proved for the uses FnSpec.tame allows; each excluded use has a
   counterexample below. *)
From Verif Require Import Prelude FnModel FnSpec FnProofs.

Lemma resets_expect : forall k vs, k <= length vs ->
  exists vs' outs, expect_all vs (map Reset (seq 0 k)) = Some (vs', outs) /\ all_tame vs (map Reset (seq 0 k)) /\
    length vs' = length vs /\ (forall i, i < k -> nth_error vs' i = Some None).
Proof.
  intros k vs L.
  assert (G : forall n s vs, s + n <= length vs -> (forall i, i < s -> nth_error vs i = Some None) ->
    exists vs' outs, expect_all vs (map Reset (seq s n)) = Some (vs', outs) /\ all_tame vs (map Reset (seq s n)) /\
      length vs' = length vs /\ (forall i, i < s + n -> nth_error vs' i = Some None)).
  { induction n as [|n IH]; intros s us Hl Hs; cbn [seq map expect_all all_tame].
    - exists us, []. repeat split; auto. intros i Hi. apply Hs. lia.
    - cbn [expect tame]. destruct (nth_error us s) as [v|] eqn:N.
      2:{ apply nth_error_None in N. lia. }
      assert (LL : length (setn us s None) = length us).
      { clear. revert s. induction us; intros [|s]; cbn; auto. }
      destruct (IH (S s) (setn us s None)) as (vs' & outs & E & T & L' & A).
      + rewrite LL. lia.
      + intros i Hi. destruct (Nat.eq_dec i s) as [->|D]; [eapply setn_nth_eq; eauto|].
        rewrite setn_nth_neq by congruence. apply Hs. lia.
      + rewrite E. exists vs', (Done :: outs). repeat split; auto; try congruence.
        intros i Hi. apply A. lia. }
  destruct (G k 0 vs) as (vs' & outs & H); [lia|intros i Hi; lia|]. exists vs', outs. exact H.
Qed.

Lemma expect_all_app : forall a b vs vs1 o1, expect_all vs a = Some (vs1, o1) ->
  expect_all vs (a ++ b) = match expect_all vs1 b with Some (vs2, o2) => Some (vs2, o1 ++ o2) | None => None end.
Proof.
  induction a as [|x a IH]; intros b vs vs1 o1 E; cbn [expect_all app] in *.
  - injection E as <- <-. destruct (expect_all vs b) as [[? ?]|]; reflexivity.
  - destruct (expect vs x) as [[v o]|]; [|discriminate].
    destruct (expect_all v a) as [[v' o']|] eqn:E'; [|discriminate]. injection E as <- <-.
    rewrite (IH b _ _ _ E'). destruct (expect_all v' b) as [[? ?]|]; reflexivity.
Qed.
Lemma all_tame_app : forall a b vs vs1 o1, expect_all vs a = Some (vs1, o1) -> all_tame vs a -> all_tame vs1 b ->
  all_tame vs (a ++ b).
Proof.
  induction a as [|x a IH]; intros b vs vs1 o1 E T1 T2; cbn [expect_all all_tame app] in *.
  - injection E as <- <-. exact T2.
  - destruct T1 as [T1 T3]. split; [exact T1|].
    destruct (expect vs x) as [[v o]|]; [|discriminate].
    destruct (expect_all v a) as [[v' o']|] eqn:E'; [|discriminate]. injection E as <- <-. eapply IH; eauto.
Qed.
Lemma expect_all_length : forall a vs vs1 o1, expect_all vs a = Some (vs1, o1) -> length vs1 = length vs.
Proof.
  assert (LL : forall A (us : list A) s x, length (setn us s x) = length us).
  { intros A. induction us; intros [|s] x; cbn; auto. }
  induction a as [|x a IH]; intros vs vs1 o1 E; cbn [expect_all] in E.
  - injection E as <- _. reflexivity.
  - destruct (expect vs x) as [[v o]|] eqn:E1; [|discriminate].
    destruct (expect_all v a) as [[v' o']|] eqn:E'; [|discriminate]. injection E as <- _.
    rewrite (IH _ _ _ E'). destruct x as [d c th|d s|d s|d s|d|d]; cbn [expect] in E1;
      repeat match type of E1 with context[match ?e with _ => _ end] => destruct e end;
      try discriminate; injection E1 as <- _; rewrite ?LL; reflexivity.
Qed.

(* Any number of functions, any sequence of tame operations: the outcomes (values
   returned, exceptions) and operator bool are those of the values, the
   trace is legal, and once the functions are gone every callable is destroyed. *)
Theorem C55_value_semantics_partial : forall n ops vs outs,
  all_tame (repeat None n) ops -> expect_all (repeat None n) ops = Some (vs, outs) ->
  (exists st, run (init n) ops = Some (st, outs) /\ legal (trace st) /\
     Forall2 (fun f v => truthy f = match v with Some _ => true | None => false end) (slots st) vs) /\
  (exists st outs', run (init n) (ops ++ map Reset (seq 0 n)) = Some (st, outs') /\ all_destroyed (trace st)).
Proof.
  intros n ops vs outs T E. split.
  - destruct (run_inv ops (init n) _ (init_inv n) T _ _ E) as (st & R & [HV (al & EA & _)]).
    exists st. split; [exact R|]. split; [unfold legal; congruence|].
    clear - HV. induction HV; constructor; auto. apply holds_truthy; assumption.
  - pose proof (expect_all_length _ _ _ _ E) as L. rewrite repeat_length in L.
    destruct (resets_expect n vs) as (vs' & o' & E2 & T2 & L2 & A); [lia|].
    destruct (run_inv (ops ++ map Reset (seq 0 n)) (init n) _ (init_inv n)
                (all_tame_app _ _ _ _ _ E T T2) vs' (outs ++ o')) as (st & R & [HV (al & EA & PA & _)]).
    { rewrite (expect_all_app _ _ _ _ _ E), E2. reflexivity. }
    exists st, (outs ++ o'). split; [exact R|].
    assert (Z : flat_map owned (slots st) = []).
    { assert (AN : Forall (fun v => v = None) vs').
      { apply Forall_forall. intros v Hv. destruct (In_nth_error _ _ Hv) as (i & Hi).
        assert (i < n). { rewrite <- L, <- L2. apply nth_error_Some. congruence. }
        specialize (A i H). congruence. }
      clear - HV AN. induction HV; [reflexivity|]. inversion AN; subst. cbn [flat_map].
      rewrite (owned_off _ (holds_none _ H)), IHHV; auto. }
    rewrite Z in PA. apply Permutation_sym, Permutation_nil in PA. subst al. exact EA.
Qed.
Print Assumptions C55_value_semantics_partial.

Definition cA := mkCallable 1 true false.
Definition cB := mkCallable 2 true false.
Definition cN := mkCallable 3 false false.
Definition cS := mkCallable 4 true true.

Definition tame_ops : list op :=
  [SetCallable 0 cA false; CopyAssign 1 0; MoveAssign 2 0; Call 2; Call 0; SetCallable 1 cB false;
   LvalueAssign 2 1; Call 2; CopyAssign 0 2; Call 0; SetCallable 3 cN false; Call 3; Reset 2; CopyAssign 2 3; Call 2].
Example tame_case :
  all_tame (repeat None 4) tame_ops /\
  expect_all (repeat None 4) tame_ops =
    Some ([Some cB; Some cB; None; Some cN],
          [Done; Done; Done; Value 1; Threw; Done; Done; Value 2; Done; Value 2; Done; Value 3; Done; Threw; Threw]%Z).
Proof.
  split; [|reflexivity].
  cbn. repeat split; try discriminate; auto; try (left; reflexivity); try (right; reflexivity).
  - right. split; [reflexivity|]. intros c H. injection H as <-. reflexivity.
  - exists cB. split; reflexivity.
Qed.

(* Copy assignment (from a const function) onto a function that holds a callable loses
   that callable: it is never destroyed. *)
Theorem C55_copy_assign_leaks_refuted :
  exists st outs, run (init 2) ([SetCallable 0 cA false; SetCallable 1 cB false; CopyAssign 0 1] ++ map Reset (seq 0 2))
    = Some (st, outs) /\ legal (trace st) /\ ~ all_destroyed (trace st).
Proof. eexists _, _. split; [reflexivity|]. split; unfold legal, all_destroyed; vm_compute; discriminate. Qed.
Print Assumptions C55_copy_assign_leaks_refuted.

(* So does move assignment. *)
Theorem C55_move_assign_leaks_refuted :
  exists st outs, run (init 2) ([SetCallable 0 cA false; SetCallable 1 cB false; MoveAssign 0 1] ++ map Reset (seq 0 2))
    = Some (st, outs) /\ legal (trace st) /\ ~ all_destroyed (trace st).
Proof. eexists _, _. split; [reflexivity|]. split; unfold legal, all_destroyed; vm_compute; discriminate. Qed.
Print Assumptions C55_move_assign_leaks_refuted.

(* f = g with an empty, non-const g: f is reported as full, though calling it throws. *)
Theorem C55_assign_empty_refuted :
  exists st f, run (init 2) [LvalueAssign 0 1; Call 0] = Some (st, [Done; Threw]) /\
    nth_error (slots st) 0 = Some f /\ truthy f = true.
Proof. eexists _, _. split; [reflexivity|]. split; reflexivity. Qed.
Print Assumptions C55_assign_empty_refuted.

(* f = f copies from the callable it has just destroyed. *)
Theorem C55_self_assign_refuted :
  exists st outs, run (init 1) [SetCallable 0 cA false; LvalueAssign 0 0] = Some (st, outs) /\ ~ legal (trace st).
Proof. eexists _, _. split; [reflexivity|]. unfold legal; vm_compute. congruence. Qed.
Print Assumptions C55_self_assign_refuted.

(* When the new callable's constructor throws, the old one is destroyed
   but still called by ~function: destroyed twice. *)
Theorem C55_throwing_assign_refuted :
  exists st outs, run (init 1) [SetCallable 0 cA false; SetCallable 0 cB true; Reset 0] = Some (st, outs) /\
    ~ legal (trace st).
Proof. eexists _, _. split; [reflexivity|]. unfold legal; vm_compute. congruence. Qed.
Print Assumptions C55_throwing_assign_refuted.

(* The same when f = g throws because g's callable is not copyable. *)
Theorem C55_assign_noncopyable_refuted :
  exists st outs, run (init 2) [SetCallable 0 cA false; SetCallable 1 cN false; LvalueAssign 0 1; Call 0] = Some (st, outs) /\
    ~ legal (trace st).
Proof. eexists _, _. split; [reflexivity|]. unfold legal; vm_compute. congruence. Qed.
Print Assumptions C55_assign_noncopyable_refuted.

(* Moving a small callable that points into itself copies its bytes. *)
Theorem C55_move_self_referencing_refuted :
  exists st outs, run (init 2) [SetCallable 0 cS false; MoveAssign 1 0] = Some (st, outs) /\ ~ legal (trace st).
Proof. eexists _, _. split; [reflexivity|]. unfold legal; vm_compute. congruence. Qed.
Print Assumptions C55_move_self_referencing_refuted.
