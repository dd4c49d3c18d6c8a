(** Model of the parking lot of execution/ConcurrencyPrimitive.cpp: WaitNode (52-91), WaitQueue (93-137), ParkingLot (142-212),
    emulated_futex_wake (217-227).
    One WaitQueue (one of the 4096 of get_queue 98-103, selected by the low bits of the mixed key, so several addresses share it).
    Nodes live on an explicit heap: an address is an index, a freed cell is None, addresses are not reused (a simplification: reuse could
    only hide an access to a freed node).  Everything done while holding queue->_mtx is one atomic operation; node->_mtx only guards
    _signaled, so wake() is one store.  Addresses are 64-bit numbers. *)
From Verif Require Import Prelude HashModel.

(** outcome of an operation: a value, undefined behaviour (access to freed memory or through a null pointer), or fuel exhausted *)
Inductive res (A : Type) := Ret (a : A) | Ub | Oof.
Arguments Ret {A} a. Arguments Ub {A}. Arguments Oof {A}.
Definition rbind {A B} (x : res A) (f : A -> res B) : res B := match x with Ret a => f a | Ub => Ub | Oof => Oof end.

(** WaitNode (52-91): _key, _lotid, _data, _signaled, _next *)
Record node := mkNode { nkey : N; nlot : nat; ndata : N; nsig : bool; nnext : option nat }.
Definition mem := list (option node).
Definition ld (m : mem) (a : nat) : res node := match nth_error m a with Some (Some n) => Ret n | _ => Ub end.
(** store to an allocated cell *)
Definition st (m : mem) (a : nat) (n : node) : res mem :=
  rbind (ld m a) (fun _ => match upd m a (Some n) with Some m' => Ret m' | None => Ub end).
(** delete *)
Definition del (m : mem) (a : nat) : res mem :=
  rbind (ld m a) (fun _ => match upd m a None with Some m' => Ret m' | None => Ub end).

(** WaitQueue (93-96): _list, _count; the heap is carried along *)
Record queue := mkQ { qmem : mem; qlist : option nat; qcount : Z }.
Definition empty_queue : queue := mkQ [] None 0.

(** get_queue (98-103): which of the 4096 queues a mixed key selects *)
Definition queue_index (key : N) : N := N.land key 4095.

(** insertHead (115-120): returns the new node *)
Definition insert_head (q : queue) (key : N) (lot : nat) (data : N) : queue * nat :=
  (mkQ (qmem q ++ [Some (mkNode key lot data false (qlist q))]) (Some (length (qmem q))) (qcount q), length (qmem q)).

(** scaffolding: comparison of WaitNode pointers (ConcurrencyPrimitive.cpp 93-137) *)
Definition ptr_eqb (a b : option nat) : bool :=
  match a, b with Some x, Some y => Nat.eqb x y | None, None => true | _, _ => false end.
(** an assignment to the next pointer of a WaitNode (ConcurrencyPrimitive.cpp 52-91) *)
Definition w_next (n : node) (p : option nat) : node := mkNode (nkey n) (nlot n) (ndata n) (nsig n) p.
(** a WaitNode signaled (ConcurrencyPrimitive.cpp 52-91) *)
Definition w_sig (n : node) : node := mkNode (nkey n) (nlot n) (ndata n) true (nnext n).

(** loop of WaitQueue::erase (128-136) *)
Fixpoint erase_loop (fuel : nat) (m : mem) (prev : nat) (cur : option nat) (nd : option nat) : res mem :=
  match cur with
  | None => Ret m
  | Some c =>
    match fuel with
    | O => Oof
    | S f =>
      if ptr_eqb nd cur
      then rbind (ld m prev) (fun p => rbind (ld m c) (fun n => rbind (st m prev (w_next p (nnext n))) (fun m' => del m' c)))
      else rbind (ld m c) (fun n => erase_loop f m c (nnext n) nd)
    end
  end.
(** WaitQueue::erase (121-137).  122-126: [delete _list; _list = _list->_next] reads the node after deleting it (and dereferences null on
    an empty queue).  127 dereferences _list. *)
Definition erase (q : queue) (nd : option nat) : res queue :=
  if ptr_eqb (qlist q) nd then Ub
  else match qlist q with
       | None => Ub
       | Some h => rbind (ld (qmem q) h) (fun n =>
                   rbind (erase_loop (length (qmem q)) (qmem q) h (nnext n) nd) (fun m => Ret (mkQ m (qlist q) (qcount q))))
       end.

(** WaitNodeBase::wake (76-80) *)
Definition wake (q : queue) (a : nat) : res queue :=
  rbind (ld (qmem q) a) (fun n => rbind (st (qmem q) a (w_sig n)) (fun m => Ret (mkQ m (qlist q) (qcount q)))).

(** UnparkControl (ConcurrencyPrimitive.hpp 10) *)
Inductive control := RetainContinue | RemoveContinue | RetainBreak | RemoveBreak.
Definition removes (c : control) : bool := match c with RemoveBreak | RemoveContinue => true | _ => false end.
Definition breaks (c : control) : bool := match c with RemoveBreak | RetainBreak => true | _ => false end.

Section Unpark.
Context {St : Type}.
Variable func : St -> N -> St * control.    (* the Unparker lambda with its captured state *)

(** the loop of ParkingLot::unpark (196-210); [p] is the variable st.  203: erase is applied to st, which 199 has already advanced *)
Fixpoint unpark_loop (fuel : nat) (lot : nat) (key : N) (q : queue) (p : option nat) (s : St) : res (queue * St) :=
  match p with
  | None => Ret (q, s)
  | Some a =>
    match fuel with
    | O => Oof
    | S f =>
      rbind (ld (qmem q) a) (fun n =>
      let p' := nnext n in
      if N.eqb (nkey n) key && Nat.eqb (nlot n) lot
      then let '(s', c) := func s (ndata n) in
           rbind (if removes c then rbind (erase q p') (fun q => wake q a) else Ret q) (fun q' =>
           if breaks c then Ret (q', s') else unpark_loop f lot key q' p' s')
      else unpark_loop f lot key q p' s)
    end
  end.
(** ParkingLot::unpark (188-211) *)
Definition unpark (lot : nat) (addr : N) (q : queue) (s : St) : res (queue * St) :=
  if (qcount q =? 0)%Z then Ret (q, s)
  else unpark_loop (S (length (qmem q))) lot (twang_mix64 addr) q (qlist q) s.
End Unpark.

(** the lambda of Mutex::unlock (412) and ConditionVariable::notify_one (462) *)
Definition wake_one (s : unit) (_ : N) : unit * control := (s, RemoveBreak).
(** the lambda of ConditionVariable::notify_all (471) *)
Definition wake_all (s : unit) (_ : N) : unit * control := (s, RemoveContinue).
(** the lambda of emulated_futex_wake (220-225): count and woken *)
Definition wake_n (wakeMask : N) (s : Z * Z) (mask : N) : (Z * Z) * control :=
  if N.eqb (N.land mask wakeMask) 0 then (s, RetainContinue)
  else ((fst s - 1, snd s + 1)%Z, if (0 <? fst s - 1)%Z then RemoveContinue else RemoveBreak).
(** emulated_futex_wake (217-227) *)
Definition futex_wake (lot : nat) (addr : N) (count : Z) (wakeMask : N) (q : queue) : res (queue * Z) :=
  rbind (unpark (wake_n wakeMask) lot addr q (count, 0%Z)) (fun r => Ret (fst r, snd (snd r))).

(** ParkingLot::parkFor, first half (159-174): _count is incremented, then under the queue lock the condition decides between leaving
    (Skip, _count decremented) and inserting a node.  The second increment/decrement are separate accesses in the code; here, for
    histories of whole operations, they are one step (MutexModel splits them). *)
Definition park (lot : nat) (addr data : N) (cond : bool) (q : queue) : queue * option nat :=
  if cond then let '(q', a) := insert_head (mkQ (qmem q) (qlist q) (qcount q + 1)) (twang_mix64 addr) lot data in (q', Some a)
  else (q, None).
(** parkFor after the wait timed out (178-184): erase unless signalled meanwhile; true = ParkResult::Timeout *)
Definition timeout (q : queue) (a : nat) : res (queue * bool) :=
  rbind (ld (qmem q) a) (fun n => if nsig n then Ret (q, false) else rbind (erase q (Some a)) (fun q' => Ret (q', true))).
