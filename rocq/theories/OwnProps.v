(* C56: zs::Owner holds at most one object and destroys it exactly once.

   Claim: an Owner is empty or holds one object; assigning a value, copying,
   moving and resetting owners act on those contents as written, isActive() tells
   which, every object constructed is destroyed exactly once and
   none is used after its destruction.

   Proved except for the uses OwnSpec.otame excludes; each of those fails. *)
From Verif Require Import Prelude FnModel FnSpec FnProofs OwnModel OwnSpec OwnProofs.

Lemma oexpect_len : forall ops vs vs' ts, oexpect_all vs ops = Some (vs', ts) -> length vs' = length vs.
Proof.
  assert (LL : forall A (us : list A) s x, length (setn us s x) = length us).
  { intros A. induction us; intros [|s] x; cbn; auto. }
  induction ops as [|x a IH]; intros vs vs1 o1 E; cbn [oexpect_all] in E.
  - injection E as <- _. reflexivity.
  - destruct (oexpect vs x) as [[v o]|] eqn:E1; [|discriminate].
    destruct (oexpect_all v a) as [[v' o']|] eqn:E'; [|discriminate]. injection E as <- _.
    rewrite (IH _ _ _ E'). destruct x as [d c th|d|d s|d s|d s|d s|d]; cbn [oexpect] in E1;
      repeat match type of E1 with context[match ?e with _ => _ end] => destruct e end;
      try discriminate; injection E1 as <- _; rewrite ?LL; reflexivity.
Qed.

Theorem C56_owner_semantics_partial : forall assignable n ops vs ts,
  oall_tame assignable (repeat None n) ops -> oexpect_all (repeat None n) ops = Some (vs, ts) ->
  exists st, orun assignable (oinit n) ops = Some (st, ts) /\ Forall2 shows (oslots st) vs /\ legal (otrace st) /\
    exists st' ts', orun assignable st (map ResetOwner (seq 0 n)) = Some (st', ts') /\ all_destroyed (otrace st').
Proof.
  intros a n ops vs ts T E.
  destruct (orun_inv a ops (oinit n) _ (oinit_inv n) T _ _ E) as (st & R & I).
  exists st. split; [exact R|]. split; [apply I|]. split.
  - destruct (oi_ok _ _ I) as (al & EA & _). unfold legal. congruence.
  - eapply orelease_all; eauto. rewrite (oexpect_len _ _ _ _ E). apply repeat_length.
Qed.
Print Assumptions C56_owner_semantics_partial.

Definition owner_ops : list oop :=
  [SetValue 0 5 false; MoveOwner 1 0; SetValue 1 6 false; MoveInit 2 1; MoveOwner 2 0; SetValue 0 9 false; ResetOwner 1;
   CopyOwner 2 2; SetValue 1 3 true; MoveInit 0 1; CopyInit 2 1; SetValue 1 4 false]%Z.
Example owner_case : oall_tame false (repeat None 3) owner_ops /\
  oexpect_all (repeat None 3) owner_ops =
    Some ([None; Some (Some 4%Z); None], [false; false; false; false; false; false; false; false; true; false; false; false]).
Proof.
  split; [|reflexivity]. cbn. repeat split; try discriminate; auto.
Qed.

(* Copying a full owner copies its bytes: the object is destroyed twice. *)
Theorem C56_copy_construct_refuted : forall assignable,
  exists st ts, orun assignable (oinit 2) ([SetValue 0 5%Z false; CopyInit 1 0] ++ map ResetOwner (seq 0 2)) = Some (st, ts) /\
    ~ legal (otrace st).
Proof. intros [|]; eexists _, _; (split; [reflexivity|]); unfold legal; vm_compute; congruence. Qed.
Print Assumptions C56_copy_construct_refuted.

Theorem C56_copy_assign_refuted : forall assignable,
  exists st ts, orun assignable (oinit 2) ([SetValue 0 5%Z false; CopyOwner 1 0] ++ map ResetOwner (seq 0 2)) = Some (st, ts) /\
    ~ legal (otrace st).
Proof. intros [|]; eexists _, _; (split; [reflexivity|]); unfold legal; vm_compute; congruence. Qed.
Print Assumptions C56_copy_assign_refuted.

(* Copying an empty owner over a full one loses its object. *)
Theorem C56_copy_empty_leaks_refuted : forall assignable,
  exists st ts, orun assignable (oinit 2) ([SetValue 0 5%Z false; CopyOwner 0 1] ++ map ResetOwner (seq 0 2)) = Some (st, ts) /\
    legal (otrace st) /\ ~ all_destroyed (otrace st).
Proof.
  intros [|]; eexists _, _; (split; [reflexivity|]); unfold legal, all_destroyed; vm_compute; split; discriminate.
Qed.
Print Assumptions C56_copy_empty_leaks_refuted.

(* A type that cannot be assigned: the old object is destroyed before the new one
   is constructed, so a throwing constructor leaves it to be destroyed again... *)
Theorem C56_throwing_constructor_refuted :
  exists st ts, orun false (oinit 1) [SetValue 0 5%Z false; SetValue 0 6%Z true; ResetOwner 0] = Some (st, ts) /\
    ~ legal (otrace st).
Proof. eexists _, _; (split; [reflexivity|]); unfold legal; vm_compute; congruence. Qed.
Print Assumptions C56_throwing_constructor_refuted.

(* ... and assigning the object to its own owner copies from a destroyed object. *)
Theorem C56_self_value_refuted :
  exists st ts, orun false (oinit 1) [SetValue 0 5%Z false; SetOwn 0] = Some (st, ts) /\ ~ legal (otrace st).
Proof. eexists _, _; (split; [reflexivity|]); unfold legal; vm_compute; congruence. Qed.
Print Assumptions C56_self_value_refuted.
