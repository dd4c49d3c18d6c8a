(** * C104: dispatch over several variants *)

From Coq Require Import List Arith Bool Lia.
From Verif Require Import VtModel VtSpec VtProofs.
Import ListNotations.

(** The visitor is called exactly once, on the alternatives held, when it accepts them. *)
Theorem C104_dispatch : forall callable ns held, ns <> [] -> (forall n, In n ns -> 0 < n) ->
  holding ns held -> callable held = true -> execute callable ns held = [held].
Proof.
  intros callable ns held Hne Hpos Hh Hc. apply execute_spec; auto. apply holding_nth. exact Hh.
Qed.
Print Assumptions C104_dispatch.

(** It is never called on other alternatives: not when it does not accept the ones held, not when
    a variant holds nothing.  Nothing reports the missing call. *)
Theorem C104_silent : forall callable ns held, ns <> [] -> (forall n, In n ns -> 0 < n) ->
  length held = length ns -> callable held = false \/ ~ holding ns held -> execute callable ns held = [].
Proof.
  intros callable ns held Hne Hpos Hl H. apply execute_spec; auto.
  intros [Hc Hh]. destruct H as [H | H]; [congruence | contradiction].
Qed.
Print Assumptions C104_silent.

(** Three variants of 2, 3 and 2 alternatives, the visitor accepting the combinations of unequal
    first and last alternative. *)
Definition ex_callable (is : list nat) : bool := negb (Nat.eqb (nth 0 is 9) (nth 2 is 9)).
Example C104_ex : holding [2; 3; 2] [0; 2; 1] /\ ex_callable [0; 2; 1] = true /\
  execute ex_callable [2; 3; 2] [0; 2; 1] = [[0; 2; 1]] /\
  execute ex_callable [2; 3; 2] [1; 1; 1] = [] /\ execute ex_callable [2; 3; 2] [0; 3; 1] = [].
Proof. split; [repeat constructor | repeat split; reflexivity]. Qed.
