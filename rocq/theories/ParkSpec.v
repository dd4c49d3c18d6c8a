(** Specification vocabulary for the parking lot (C46). *)
From Verif Require Import Prelude HashModel ParkModel.

(** [a] is an allocated node with contents [n] *)
Definition cell (q : queue) (a : nat) (n : node) : Prop := nth_error (qmem q) a = Some (Some n).
Definition freed (q : queue) (a : nat) : Prop := nth_error (qmem q) a = Some None.
(** the links from [p] go through exactly the nodes [l], all allocated *)
Inductive chain (m : mem) : option nat -> list nat -> Prop :=
| ch_nil : chain m None []
| ch_cons a n l : nth_error m a = Some (Some n) -> chain m (nnext n) l -> chain m (Some a) (a :: l).
(** the wait queue holds the waiters [l], first to last *)
Definition holds (q : queue) (l : list nat) : Prop := chain (qmem q) (qlist q) l /\ NoDup l /\ (Z.of_nat (length l) <= qcount q)%Z.
(** node [a] was parked on (lot, addr) *)
Definition parked_on (q : queue) (lot : nat) (addr : N) (a : nat) : Prop :=
  exists n, cell q a n /\ nkey n = twang_mix64 addr /\ nlot n = lot.
Definition signalled (q : queue) (a : nat) : Prop := exists n, cell q a n /\ nsig n = true.
Definition sleeping (q : queue) (a : nat) : Prop := exists n, cell q a n /\ nsig n = false.
(** the waiter [a] (its key, lot, data and signal) is the same in both states *)
Definition same_waiter (q q' : queue) (a : nat) : Prop :=
  exists n n', cell q a n /\ cell q' a n' /\ nkey n = nkey n' /\ nlot n = nlot n' /\ ndata n = ndata n' /\ nsig n = nsig n'.

(** Histories of whole operations on one queue *)
Inductive op :=
| Park (lot : nat) (addr data : N) (cond : bool)   (* parkFor up to the sleep; waiter number = number of earlier insertions *)
| WakeOne (lot : nat) (addr : N)
| WakeAll (lot : nat) (addr : N)
| FutexWake (lot : nat) (addr : N) (count : Z) (mask : N)
| TimedOut (a : nat)                               (* waiter a's wait times out *)
| Resume (a : nat).                                (* waiter a evaluates its wait condition: reads its node *)
Definition exec (o : op) (q : queue) : res queue :=
  match o with
  | Park lot addr data cond => Ret (fst (park lot addr data cond q))
  | WakeOne lot addr => rbind (unpark wake_one lot addr q tt) (fun r => Ret (fst r))
  | WakeAll lot addr => rbind (unpark wake_all lot addr q tt) (fun r => Ret (fst r))
  | FutexWake lot addr count mask => rbind (futex_wake lot addr count mask q) (fun r => Ret (fst r))
  | TimedOut a => rbind (timeout q a) (fun r => Ret (fst r))
  | Resume a => rbind (ld (qmem q) a) (fun _ => Ret q)
  end.
Fixpoint run (h : list op) (q : queue) : res queue :=
  match h with [] => Ret q | o :: r => rbind (exec o q) (run r) end.

(** What the queue should do when at most one thread is inside parkFor at a time: that thread is asleep until the first wake-one on its
    own (lot, address), then it may resume. *)
Inductive phase := Nobody | Asleep (i : nat) (lot : nat) (addr : N) | Woken (i : nat).
Definition spec_step (o : op) (s : nat * phase) : option (nat * phase) :=
  let '(n, ph) := s in
  match o, ph with
  | Park lot addr _ true, Nobody => Some (S n, Asleep n lot addr)
  | Park _ _ _ false, _ => Some s
  | WakeOne lot addr, Asleep i lot' addr' => Some (n, if Nat.eqb lot lot' && N.eqb addr addr' then Woken i else ph)
  | WakeOne _ _, _ => Some s
  | Resume i, Woken j => if Nat.eqb i j then Some (n, Nobody) else None
  | _, _ => None
  end.
Fixpoint spec_run (h : list op) (s : nat * phase) : option (nat * phase) :=
  match h with [] => Some s | o :: r => match spec_step o s with Some s' => spec_run r s' | None => None end end.
Definition addresses_64 (h : list op) : Prop :=
  Forall (fun o => match o with Park _ a _ _ | WakeOne _ a | WakeAll _ a | FutexWake _ a _ _ => (a < 2 ^ 64)%N | _ => True end) h.
