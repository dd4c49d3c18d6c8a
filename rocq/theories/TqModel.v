(* Model of threadsafe_queue, execution/Concurrency.h 23-91, used by any number of
   threads at once.
   Simplifications: sequentially consistent interleaving of the steps below;
   std::mutex is an owner field; std::condition_variable keeps the set of sleeping
   threads, notify_one wakes any one of them if there is one, and threads may also
   wake spuriously; the value type is a parameter whose copies cannot fail; the
   overloads of push, wait_and_pop and try_pop differ only in how the value is
   handed over and are not told apart; copy construction is left out. *)
From Verif Require Import Prelude.

Section QUEUE.
Context {A : Type}.

(** the calls: push (Concurrency.h 35-44), wait_and_pop (45-66), try_pop (67-87), empty (88-91) *)
Inductive op := Push (v : A) | WaitPop | TryPop | IsEmpty.
(** what they return (Concurrency.h 35-91) *)
Inductive res := Done | Value (v : A) | Nothing | Flag (b : bool).

(* where a thread is *)
Inductive pc :=
| Idle                 (* outside of the queue *)
| Enter (o : op)       (* about to lock mut *)
| Inside (o : op)      (* holds mut, body not started; wait: about to test the predicate *)
| Popping (o : op)     (* holds mut, has seen a non-empty queue; about to read front and pop *)
| Notify               (* holds mut, has pushed; about to call notify_one *)
| Leave (r : res)      (* holds mut, about to unlock and return r *)
| Asleep               (* in data_cond.wait, mut released *)
| Woken                (* in data_cond.wait, notified; about to lock mut again *)
| Crashed.             (* front() or pop() of an empty queue *)

(** data_queue (Concurrency.h 26), the owner of mut (25), the places of the threads *)
Record state := State { queue : list A; owner : option nat; pcs : list pc }.
(** scaffolding: what is observed of the calls (Concurrency.h 35-91) *)
Inductive event := Call (t : nat) (o : op) | Effect (t : nat) (o : op) (r : res) | Return (t : nat) (r : res).
(* what thread t does next: calls an operation, goes on, wakes k in notify_one,
   or wakes spuriously *)
Inductive act := Start (o : op) | Go | Wake (k : nat) | Spurious.

(** scaffolding: blocked in data_cond.wait (Concurrency.h 48, 55, 62) *)
Definition asleep (p : pc) : bool := match p with Asleep => true | _ => false end.
(** scaffolding: the state after a step of thread t *)
Definition put (s : state) (q : list A) (o : option nat) (t : nat) (p : pc) (e : list event) : option (state * list event) :=
  option_map (fun l => (State q o l, e)) (upd (pcs s) t p).

(* execution/Concurrency.h 35-44 push, 45-66 wait_and_pop, 67-86 try_pop, 87-90 empty *)
Definition step (s : state) (t : nat) (a : act) : option (state * list event) :=
  match nth_error (pcs s) t, a with
  | Some Idle, Start o => put s (queue s) (owner s) t (Enter o) [Call t o]
  | Some (Enter o), Go =>
      match owner s with None => put s (queue s) (Some t) t (Inside o) [] | Some _ => None end
  | Some (Inside (Push v)), Go =>
      put s (queue s ++ [v]) (owner s) t Notify [Effect t (Push v) Done]
  | Some Notify, Wake k =>
      match nth_error (pcs s) k with
      | Some Asleep =>
          match upd (pcs s) k Woken with
          | Some l => put (State (queue s) (owner s) l) (queue s) (owner s) t (Leave Done) []
          | None => None
          end
      | _ => None
      end
  | Some Notify, Go =>
      if existsb asleep (pcs s) then None else put s (queue s) (owner s) t (Leave Done) []
  | Some (Inside WaitPop), Go =>
      match queue s with
      | [] => put s (queue s) None t Asleep []
      | _ :: _ => put s (queue s) (owner s) t (Popping WaitPop) []
      end
  | Some Asleep, Spurious => put s (queue s) (owner s) t Woken []
  | Some Woken, Go =>
      match owner s with None => put s (queue s) (Some t) t (Inside WaitPop) [] | Some _ => None end
  | Some (Inside TryPop), Go =>
      match queue s with
      | [] => put s (queue s) (owner s) t (Leave Nothing) [Effect t TryPop Nothing]
      | _ :: _ => put s (queue s) (owner s) t (Popping TryPop) []
      end
  | Some (Popping o), Go =>
      match queue s with
      | [] => put s (queue s) (owner s) t Crashed []
      | x :: q => put s q (owner s) t (Leave (Value x)) [Effect t o (Value x)]
      end
  | Some (Inside IsEmpty), Go =>
      let b := match queue s with [] => true | _ => false end in
      put s (queue s) (owner s) t (Leave (Flag b)) [Effect t IsEmpty (Flag b)]
  | Some (Leave r), Go => put s (queue s) None t Idle [Return t r]
  | _, _ => None
  end.

(* [n] threads outside of an empty queue; a run is a list of scheduled actions *)
Definition start (n : nat) : state := State [] None (repeat Idle n).
Inductive run : state -> list event -> state -> Prop :=
| run_nil s : run s [] s
| run_step s es s' t a e s'' : run s es s' -> step s' t a = Some (s'', e) -> run s (es ++ e) s''.
End QUEUE.
Arguments op : clear implicits.
Arguments res : clear implicits.
Arguments pc : clear implicits.
Arguments state : clear implicits.
Arguments event : clear implicits.
Arguments act : clear implicits.
