(** * Row-major arrays *)
From Coq Require Import Arith List.
Import ListNotations.

(** One index per dimension, each below the extent. *)
Definition valid (s is : list nat) : Prop := Forall2 (fun d i => i < d) s is.
Definition product (s : list nat) : nat := fold_right Nat.mul 1 s.
(** Position in the row-major (last index fastest) enumeration, by Horner's rule. *)
Fixpoint rank (acc : nat) (s is : list nat) : nat :=
  match s, is with d :: s, i :: is => rank (acc * d + i) s is | _, _ => acc end.
