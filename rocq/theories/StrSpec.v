(** Specification vocabulary for C strings. *)
From Verif Require Import Prelude.

(** [Holds mem s]: memory [mem] holds the NUL-terminated string [s] at its start. *)
Definition Holds (mem s : list nat) : Prop :=
  ~ In 0 s /\ exists rest, mem = s ++ 0 :: rest.
