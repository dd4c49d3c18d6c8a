(** Model of the portable Mutex of execution/ConcurrencyPrimitive.cpp (lock 360-400, unlock 402-414, try_lock 416-423) together with the
    parking lot it sleeps in (parkFor 157-186, unpark 188-211).
    A step of a thread is one access to shared state (the mutex word, the queue's _count, the queue lock, the node) with the thread-local
    work up to the next one.  compare_exchange_weak may fail spuriously and then loads the current value.  Accesses are sequentially
    consistent (a simplification: the code uses acquire/release on the word and relaxed loads).  sleep_for and yield have no effect.
    The queue is the one selected by the mutex address; the part of parkFor and unpark under queue->_mtx is split at the accesses to the
    mutex word, which the queue lock does not protect. *)
From Verif Require Import Prelude HashModel ParkModel.

Definition kMask : N := 1.                       (* ConcurrencyPrimitive.hpp: Mutex::_kMask *)
Definition spin_limit : N := 1024.               (* 369 *)
Definition u32 (x : N) : N := (x mod 2 ^ 32)%N.

(** where a call is: lock (ConcurrencyPrimitive.cpp 360-400), unlock (402-414) *)
Inductive pc :=
| Idle
| LLoad                                  (* 361 *)
| LCas (old : N)                         (* 362-365 *)
| Reload (spin : N)                      (* 390 *)
| MCas (old new spin : N)                (* 378-380 *)
| Park1 (new spin : N)                   (* 163: _count.fetch_add *)
| Park2 (new spin : N)                   (* 164: lock the queue *)
| Park2a (new spin : N)                  (* 165: parkCondition *)
| Park2b (spin : N)                      (* 172: insertHead, then the queue lock is released *)
| Park3 (spin : N)                       (* 168: _count.fetch_sub *)
| Wait (a : nat) (spin : N)              (* 176: waitFor *)
| ACas (old new spin : N)                (* 394-397 *)
| Held
| ULoad                                  (* 403 *)
| UCas (old : N)                         (* 405-408 *)
| Unp1                                   (* 193: _count.load *)
| Unp2                                   (* 195: lock the queue *)
| Unp3                                   (* 196-210 *)
| TLoad                                  (* 417 *)
| TCas (st : N).                         (* 420-421 *)

(** from the label mutex_lock_retry (371-392) to the next access *)
Definition retry (old spin : N) : pc :=
  if negb (N.eqb (N.land old kMask) 0)
  then let spin := u32 (spin + 1) in
       if N.ltb spin_limit spin
       then let new := N.lor old kMask in
            if negb (N.eqb new old) then MCas old new spin else Park1 new spin
       else Reload spin
  else ACas old (N.lor old kMask) spin.
(** lock 362: the fast path is only tried on 0 *)
Definition after_load (old : N) : pc := if N.eqb old 0 then LCas old else retry old 0.
(** try_lock 419: None = return false *)
Definition try_head (s : N) : option pc := if N.eqb s 0 then Some (TCas s) else None.

(** scaffolding: what is observed of a step (ConcurrencyPrimitive.cpp 360-414) *)
Inductive label := Tau | Acquire | Release | TryFailed.
(** what is allowed beyond the code: [spurious] sleepers may return at any time; [others] threads using other addresses of the same
    queue change it arbitrarily *)
Record mode := { spurious : bool; others : bool }.
(** shared state: the mutex word, the queue, the holder of the queue lock *)
Record shared := mkS { word : N; que : queue; qlk : option nat }.

Section T.
Variable md : mode.
Variable lot : nat.
Variable addr : N.              (* the address of the mutex *)
Variable t : nat.               (* the thread *)
Definition count_add (q : queue) (d : Z) : queue := mkQ (qmem q) (qlist q) (qcount q + d).

(** one step of a thread (ConcurrencyPrimitive.cpp 360-414) *)
Inductive tstep : shared -> pc -> label -> shared -> pc -> Prop :=
| s_lock s : tstep s Idle Tau s LLoad
| s_try s : tstep s Idle Tau s TLoad
| s_unlock s : tstep s Held Tau s ULoad
| s_lload s : tstep s LLoad Tau s (after_load (word s))
| s_lcas s old : word s = old -> tstep s (LCas old) Acquire (mkS (N.lor old kMask) (que s) (qlk s)) Held
| s_lcas_fail s old : tstep s (LCas old) Tau s (retry (word s) 0)
| s_reload s spin : tstep s (Reload spin) Tau s (retry (word s) spin)
| s_mcas s old new spin : word s = old -> tstep s (MCas old new spin) Tau (mkS new (que s) (qlk s)) (Park1 new spin)
| s_mcas_fail s old new spin : tstep s (MCas old new spin) Tau s (retry (word s) spin)
| s_park1 s new spin : tstep s (Park1 new spin) Tau (mkS (word s) (count_add (que s) 1) (qlk s)) (Park2 new spin)
| s_park2 s new spin : qlk s = None -> tstep s (Park2 new spin) Tau (mkS (word s) (que s) (Some t)) (Park2a new spin)
| s_park2a_yes s new spin : word s = new -> tstep s (Park2a new spin) Tau s (Park2b spin)
| s_park2a_no s new spin : word s <> new -> tstep s (Park2a new spin) Tau (mkS (word s) (que s) None) (Park3 spin)
| s_park2b s spin : tstep s (Park2b spin) Tau
    (mkS (word s) (fst (insert_head (que s) (twang_mix64 addr) lot kMask)) None) (Wait (snd (insert_head (que s) (twang_mix64 addr) lot kMask)) spin)
| s_park3 s spin : tstep s (Park3 spin) Tau (mkS (word s) (count_add (que s) (-1)) (qlk s)) (Reload spin)
| s_wait s a spin n : ld (qmem (que s)) a = Ret n -> nsig n = true -> tstep s (Wait a spin) Tau s (Reload spin)
| s_wait_spurious s a spin : spurious md = true -> tstep s (Wait a spin) Tau s (Reload spin)
| s_acas s old new spin : word s = old -> tstep s (ACas old new spin) Acquire (mkS new (que s) (qlk s)) Held
| s_acas_fail s old new spin : tstep s (ACas old new spin) Tau s (retry (word s) spin)
| s_uload s : tstep s ULoad Tau s (UCas (word s))
| s_ucas s old : word s = old -> tstep s (UCas old) Release (mkS (N.ldiff old kMask) (que s) (qlk s))
                                       (if negb (N.eqb (N.land old kMask) 0) then Unp1 else Idle)
| s_ucas_fail s old : tstep s (UCas old) Tau s (UCas (word s))
| s_unp1_none s : qcount (que s) = 0%Z -> tstep s Unp1 Tau s Idle
| s_unp1 s : qcount (que s) <> 0%Z -> tstep s Unp1 Tau s Unp2
| s_unp2 s : qlk s = None -> tstep s Unp2 Tau (mkS (word s) (que s) (Some t)) Unp3
| s_unp3 s q' : unpark_loop wake_one (S (length (qmem (que s)))) lot (twang_mix64 addr) (que s) (qlist (que s)) tt = Ret (q', tt) ->
    tstep s Unp3 Tau (mkS (word s) q' None) Idle
| s_tload_fail s : try_head (word s) = None -> tstep s TLoad TryFailed s Idle
| s_tload s p : try_head (word s) = Some p -> tstep s TLoad Tau s p
| s_tcas s st : word s = st -> tstep s (TCas st) Acquire (mkS (N.lor st kMask) (que s) (qlk s)) Held
| s_tcas_fail s st : try_head (word s) = None -> tstep s (TCas st) TryFailed s Idle
| s_tcas_again s st p : try_head (word s) = Some p -> tstep s (TCas st) Tau s p
| s_others s p q' : others md = true -> tstep s p Tau (mkS (word s) q' (qlk s)) p.

(** the next access of the thread is undefined behaviour *)
Definition undefined (s : shared) (p : pc) : Prop :=
  match p with
  | Wait a _ => ld (qmem (que s)) a = Ub
  | Unp3 => unpark_loop wake_one (S (length (qmem (que s)))) lot (twang_mix64 addr) (que s) (qlist (que s)) tt = Ub
  | _ => False
  end.
End T.

(** [n] threads, the mutex word 0, an empty queue *)
Record state := mkState { sh : shared; thr : list pc }.
Definition init (n : nat) : state := mkState (mkS 0 empty_queue None) (repeat Idle n).
Inductive step (md : mode) (lot : nat) (addr : N) : state -> nat * label -> state -> Prop :=
| step_intro s t p l sh' p' thr' : nth_error (thr s) t = Some p -> tstep md lot addr t (sh s) p l sh' p' -> upd (thr s) t p' = Some thr' ->
    step md lot addr s (t, l) (mkState sh' thr').
Inductive exec (md : mode) (lot : nat) (addr : N) : state -> list (nat * label) -> state -> Prop :=
| ex_nil s : exec md lot addr s [] s
| ex_snoc s evs s1 e s2 : exec md lot addr s evs s1 -> step md lot addr s1 e s2 -> exec md lot addr s (evs ++ [e]) s2.
