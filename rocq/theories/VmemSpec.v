(** Histories of calls on a virtual memory resource, with the results of the system calls. *)
From Verif Require Import Prelude.
Local Open Scope Z_scope.
Inductive vcall :=
| VCommit (offset bytes : Z) (ok : bool)
| VEvict (offset bytes : Z) (ok1 ok2 : bool).
Definition vcall_ok (c : vcall) : Prop :=
  match c with VCommit o b _ => 0 <= o /\ 0 <= b | VEvict o b _ _ => 0 <= o /\ 0 <= b end.
