(** Model of ConditionVariable of execution/ConcurrencyPrimitive.hpp 59-78 and .cpp 425-472 (wait, wait_for, notify_one, notify_all) on the
    parking lot it sleeps in (parkFor 157-186, unpark 188-211; node and queue operations from ParkModel).
    A step of a thread is one access to shared state (the flag seq, the queue's _count, the queue lock, the node, the mutex).
    Simplifications: accesses are sequentially consistent; the mutex handed to wait is an ideal lock (C45 proves mutual exclusion of Mutex) that
    does not use this wait queue; no other address uses this wait queue. *)
From Verif Require Import Prelude HashModel ParkModel.

(** where a call of wait or notify is (ConcurrencyPrimitive.cpp 425-472) *)
Inductive pc :=
| Out (held : bool)                  (* outside, with or without the mutex *)
| W1                                 (* 163: _count.fetch_add *)
| W2                                 (* 164: lock the queue *)
| W2a                                (* 165, 429: parkCondition stores 1 to seq *)
| W2b                                (* 172: insertHead, then the queue lock is released *)
| W3 (a : nat)                       (* 174, 432: preWait unlocks the mutex *)
| W4 (a : nat)                       (* 176: waitFor *)
| W5                                 (* 433: lk.lock() *)
| N1 (held all : bool)               (* 461, 469: seq.load *)
| NS (held : bool)                   (* 470: seq.store(0) *)
| N2 (held all : bool)               (* 193: _count.load *)
| N3 (held all : bool)               (* 195: lock the queue *)
| N4 (held all : bool).              (* 196-210 *)

(** what threads do: begin to wait, take the mutex, give it back, enter the queue, be woken, walk the queue, return early *)
Inductive label := Tau | Lock | Unlock | Enqueue | Awake | Walked | Skipped.
(** [waits t]: thread t may call wait; [alls]: notify_all is called; [timed]: the waits are wait_for and may time out *)
Record mode := { waits : nat -> bool; alls : bool; timed : bool }.
Record shared := mkS { seq : N; mtx : option nat; que : queue; qlk : option nat }.

Section T.
Variable md : mode.
Variable lot : nat.
Variable addr : N.
Variable t : nat.
(** the search of the queue by notify_one and notify_all (ConcurrencyPrimitive.cpp 425-472) *)
Definition walk (all : bool) (q : queue) : res (queue * unit) :=
  unpark_loop (if all then wake_all else wake_one) (S (length (qmem q))) lot (twang_mix64 addr) q (qlist q) tt.

(** one step of a thread (ConcurrencyPrimitive.cpp 425-472) *)
Inductive tstep : shared -> pc -> label -> shared -> pc -> Prop :=
| s_lock s : mtx s = None -> tstep s (Out false) Lock (mkS (seq s) (Some t) (que s) (qlk s)) (Out true)
| s_unlock s : tstep s (Out true) Unlock (mkS (seq s) None (que s) (qlk s)) (Out false)
| s_wait s : waits md t = true -> tstep s (Out true) Tau s W1
| s_w1 s : tstep s W1 Tau (mkS (seq s) (mtx s) (mkQ (qmem (que s)) (qlist (que s)) (qcount (que s) + 1)) (qlk s)) W2
| s_w2 s : qlk s = None -> tstep s W2 Tau (mkS (seq s) (mtx s) (que s) (Some t)) W2a
| s_w2a s : tstep s W2a Tau (mkS 1 (mtx s) (que s) (qlk s)) W2b
| s_w2b s : tstep s W2b Enqueue
    (mkS (seq s) (mtx s) (fst (insert_head (que s) (twang_mix64 addr) lot 0)) None) (W3 (snd (insert_head (que s) (twang_mix64 addr) lot 0)))
| s_w3 s a : tstep s (W3 a) Unlock (mkS (seq s) None (que s) (qlk s)) (W4 a)
| s_w4 s a n : ld (qmem (que s)) a = Ret n -> nsig n = true -> tstep s (W4 a) Awake s W5
(** 177-184: the wait timed out *)
| s_w4_timeout s a q' b : timed md = true -> qlk s = None -> timeout (que s) a = Ret (q', b) -> tstep s (W4 a) Tau (mkS (seq s) (mtx s) q' (qlk s)) W5
| s_w5 s : mtx s = None -> tstep s W5 Lock (mkS (seq s) (Some t) (que s) (qlk s)) (Out true)
| s_notify_one s h : tstep s (Out h) Tau s (N1 h false)
| s_notify_all s h : alls md = true -> tstep s (Out h) Tau s (N1 h true)
| s_n1_skip s h b : seq s = 0%N -> tstep s (N1 h b) Skipped s (Out h)
| s_n1 s h b : seq s <> 0%N -> tstep s (N1 h b) Tau s (if b then NS h else N2 h false)
| s_ns s h : tstep s (NS h) Tau (mkS 0 (mtx s) (que s) (qlk s)) (N2 h true)
| s_n2_skip s h b : qcount (que s) = 0%Z -> tstep s (N2 h b) Skipped s (Out h)
| s_n2 s h b : qcount (que s) <> 0%Z -> tstep s (N2 h b) Tau s (N3 h b)
| s_n3 s h b : qlk s = None -> tstep s (N3 h b) Tau (mkS (seq s) (mtx s) (que s) (Some t)) (N4 h b)
| s_n4 s h b q' : walk b (que s) = Ret (q', tt) -> tstep s (N4 h b) Walked (mkS (seq s) (mtx s) q' None) (Out h).

(** the next access of the thread is undefined behaviour *)
Definition undefined (s : shared) (p : pc) : Prop :=
  match p with
  | W4 a => ld (qmem (que s)) a = Ub \/ (timed md = true /\ timeout (que s) a = Ub)
  | N4 _ b => walk b (que s) = Ub
  | _ => False
  end.
End T.

(** any number of threads, all outside *)
Record state := mkState { sh : shared; thr : nat -> pc }.
Definition init : state := mkState (mkS 0 None empty_queue None) (fun _ => Out false).
Definition set (f : nat -> pc) (t : nat) (p : pc) : nat -> pc := fun u => if Nat.eqb u t then p else f u.
Inductive step (md : mode) (lot : nat) (addr : N) : state -> nat * label -> state -> Prop :=
| step_intro s t l sh' p' : tstep md lot addr t (sh s) (thr s t) l sh' p' -> step md lot addr s (t, l) (mkState sh' (set (thr s) t p')).
Inductive exec (md : mode) (lot : nat) (addr : N) : list (nat * label) -> state -> Prop :=
| ex_nil : exec md lot addr [] init
| ex_snoc evs s1 e s2 : exec md lot addr evs s1 -> step md lot addr s1 e s2 -> exec md lot addr (evs ++ [e]) s2.
