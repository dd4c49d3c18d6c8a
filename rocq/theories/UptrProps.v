(** C07: UniquePtr releases every owned object exactly once. *)
From Verif Require Import Prelude UptrModel UptrSpec UptrProofs.

(** No object is ever deleted twice, deleted while the client owns it, or deleted with a deleter other
    than the one it was handed over with (each of these is [Violation]). *)
Theorem C07_no_double_delete :
  forall ops s, LegalRun ops s -> forall o, status_of o (u_tr s) <> Violation.
Proof. exact no_violation. Qed.
Print Assumptions C07_no_double_delete.

(** No two UniquePtrs own the same object, and what a UniquePtr owns has not been deleted. *)
Theorem C07_unique_owner :
  forall ops s, LegalRun ops s ->
  forall v w o d d', u_var s v = Some (Some o, d) -> u_var s w = Some (Some o, d') -> v = w.
Proof. exact unique_owner. Qed.
Print Assumptions C07_unique_owner.

Theorem C07_owned_is_alive :
  forall ops s, LegalRun ops s ->
  forall v o d, u_var s v = Some (Some o, d) -> status_of o (u_tr s) = Owned d.
Proof. exact owner_alive. Qed.
Print Assumptions C07_owned_is_alive.

(** When all UniquePtrs are gone, every object was deleted or is back with the client. *)
Theorem C07_no_leak :
  forall ops s, LegalRun ops s -> (forall v, u_var s v = None) ->
  forall o, status_of o (u_tr s) = Client \/ status_of o (u_tr s) = Dead.
Proof. exact no_leak. Qed.
Print Assumptions C07_no_leak.

(** A history with a self-move, a swap, a reset and destruction satisfies the hypotheses. *)
Example C07_case : exists s, LegalRun
  [UNew 0 (Some 10) 1; UNew 1 (Some 11) 2; UMoveAssign 0 0; USwap 0 1; UMoveAssign 1 0; UReset 1 (Some 12); UDestroy 0; UDestroy 1] s
  /\ u_tr s = [EHand 10 1; EHand 11 2; EDel 10 1; EHand 12 2; EDel 11 2; EDel 12 2].
Proof.
  eexists. split.
  - change ([UNew 0 (Some 10) 1; UNew 1 (Some 11) 2; UMoveAssign 0 0; USwap 0 1; UMoveAssign 1 0; UReset 1 (Some 12); UDestroy 0; UDestroy 1])
     with ((((((((([] ++ [UNew 0 (Some 10) 1]) ++ [UNew 1 (Some 11) 2]) ++ [UMoveAssign 0 0]) ++ [USwap 0 1]) ++ [UMoveAssign 1 0]) ++ [UReset 1 (Some 12)]) ++ [UDestroy 0])) ++ [UDestroy 1]).
    repeat (eapply LRsnoc; [|..]); [apply LRnil|..]; try reflexivity; try exact I.
  - reflexivity.
Qed.
