(** Specification for C97. *)
From Verif Require Import Prelude HashModel ParkModel ParkSpec CvModel.

(** thread [t] is queued: it has entered the wait queue and is about to release the mutex or has released it; a is its node *)
Definition queued (s : state) (t a : nat) : Prop := thr s t = W3 a \/ thr s t = W4 a.
(** ... and nobody has signalled it *)
Definition asleep (s : state) (t : nat) : Prop := exists a, queued s t a /\ ~ signalled (que (sh s)) a.
(** thread [t] executes code with the mutex held *)
Definition has_mutex (s : state) (t : nat) : Prop :=
  match thr s t with Out true | W1 | W2 | W2a | W2b | W3 _ | N1 true _ | NS true | N2 true _ | N3 true _ | N4 true _ => True | _ => False end.
(** another notify_all has cleared the flag and is about to walk the queue *)
Definition sweeping (s : state) : Prop := exists u h, thr s u = N2 h true \/ thr s u = N3 h true \/ thr s u = N4 h true.
(** a notification of any kind returns with this event *)
Definition returns (l : label) : Prop := l = Walked \/ l = Skipped.
Definition no_undefined (md : mode) (lot : nat) (addr : N) (s : state) : Prop := forall t, ~ undefined md lot addr (sh s) (thr s t).
Definition enqueues (evs : list (nat * label)) : nat := length (filter (fun e => match snd e with Enqueue => true | _ => false end) evs).
(** some notification walked the queue since thread [t] last entered it *)
Definition notified (t : nat) (evs : list (nat * label)) : Prop :=
  exists e1 e2 u, evs = e1 ++ (t, Enqueue) :: e2 /\ ~ In (t, Enqueue) e2 /\ In (u, Walked) e2.
(** the mutex as seen from outside *)
Fixpoint owner (o : option nat) (evs : list (nat * label)) : option (option nat) :=
  match evs with
  | [] => Some o
  | (t, Lock) :: r => match o with None => owner (Some t) r | Some _ => None end
  | (t, Unlock) :: r => match o with Some u => if Nat.eqb t u then owner None r else None | None => None end
  | _ :: r => owner o r
  end.
(** only thread [w] waits, without time limit; any thread notifies *)
Definition single (w : nat) (all : bool) : mode := {| waits := Nat.eqb w; alls := all; timed := false |}.
