(** Specification of scans: prefix folds of the input list. *)
From Verif Require Import Prelude.

Section S.
  Context {A : Type}.
  (** contents of the memory range [f, f+n) *)
  Definition contents (m : nat -> A) (f n : nat) : list A := map (fun k => m (f + k)) (seq 0 n).
  (** inclusive prefix: x0 op x1 op ... op xi, left to right *)
  Definition incl_at (op : A -> A -> A) (l : list A) (i : nat) (d : A) : A :=
    fold_left op (firstn i (tl l)) (hd d l).
  (** exclusive prefix: init op x0 op ... op x(i-1) *)
  Definition excl_at (op : A -> A -> A) (init : A) (l : list A) (i : nat) : A := fold_left op (firstn i l) init.
  (** every phase runs each of the [n] threads exactly once, in any order *)
  Definition fair (n : nat) (sched : nat -> list nat) : Prop := forall ph, Permutation (sched ph) (seq 0 n).
End S.
