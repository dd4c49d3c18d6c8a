(** Specification of a lock (C45) and of sleeping threads (C53). *)
From Verif Require Import Prelude HashModel ParkModel ParkSpec MutexModel.

(** Calls as seen from outside: [legal o evs] is the owner after the events, starting with owner [o], provided that every acquisition
    (a successful lock or try_lock) finds the lock free, every release is by the owner, and try_lock only fails while somebody owns it. *)
Fixpoint legal (o : option nat) (evs : list (nat * label)) : option (option nat) :=
  match evs with
  | [] => Some o
  | (t, Tau) :: r => legal o r
  | (t, Acquire) :: r => match o with None => legal (Some t) r | Some _ => None end
  | (t, Release) :: r => match o with Some u => if Nat.eqb t u then legal None r else None | None => None end
  | (t, TryFailed) :: r => match o with Some _ => legal o r | None => None end
  end.
(** thread [t] is between a successful lock/try_lock and the moment its unlock takes effect *)
Definition owns (s : state) (t : nat) : Prop :=
  exists p, nth_error (thr s) t = Some p /\ match p with Held | ULoad | UCas _ => True | _ => False end.
(** thread [t] has released the mutex and has yet to look into the queue *)
Definition waking (s : state) (t : nat) : Prop :=
  exists p, nth_error (thr s) t = Some p /\ match p with Unp1 | Unp2 | Unp3 => True | _ => False end.
(** thread [t] is inside the wait of parkFor *)
Definition in_wait (s : state) (t : nat) : Prop := exists a spin, nth_error (thr s) t = Some (Wait a spin).
(** ... and has not been signalled *)
Definition asleep (s : state) (t : nat) : Prop :=
  exists a spin, nth_error (thr s) t = Some (Wait a spin) /\ ~ signalled (que (sh s)) a.
(** the code as it is: no spurious returns, no other users of the queue *)
Definition strict : mode := {| spurious := false; others := false |}.
(** executions in which at most one thread at a time is inside the wait *)
Definition one_waiter (s : state) : Prop := forall t u, in_wait s t -> in_wait s u -> t = u.
Inductive exec1 (lot : nat) (addr : N) : state -> state -> Prop :=
| e1_nil s : exec1 lot addr s s
| e1_snoc s s1 e s2 : exec1 lot addr s s1 -> step strict lot addr s1 e s2 -> one_waiter s2 -> exec1 lot addr s s2.
Definition no_undefined (lot : nat) (addr : N) (s : state) : Prop :=
  forall t p, nth_error (thr s) t = Some p -> ~ undefined lot addr (sh s) p.
