(** * What a dispatch does: one call, on the alternatives the variants hold *)

From Coq Require Import List Arith.
Import ListNotations.

(** Every variant holds one of its alternatives. *)
Definition holding (ns held : list nat) : Prop := Forall2 (fun h n => h < n) held ns.
