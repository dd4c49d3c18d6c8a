(** * What is expected of the job queue *)
From Coq Require Import List.
From Verif Require Import IoModel.
Import ListNotations.

(** The states some interleaving leads to. *)
Definition reachable (spur : bool) (s : state) : Prop := exists l, run spur init l = Some s.
(** The job being run, if any. *)
Definition current (s : state) : list nat := match worker s with Exec j => [j] | _ => [] end.
Definition prefix (a b : list nat) : Prop := exists c, b = a ++ c.
(** No thread can go on. *)
Definition stuck (s : state) : Prop := forall a, step false s a = None.
