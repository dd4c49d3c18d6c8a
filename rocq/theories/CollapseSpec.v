(** The index box and the lexicographic order. *)
From Verif Require Import Prelude.
Local Open Scope Z_scope.

Definition in_box (ns t : list Z) : Prop := Forall2 (fun n x => 0 <= x < n) ns t.

Fixpoint lexlt (a b : list Z) : Prop :=
  match a, b with
  | x :: a', y :: b' => x < y \/ (x = y /\ lexlt a' b')
  | _, _ => False
  end.
