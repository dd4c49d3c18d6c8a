(** * IO, the background job queue (include/zensim/io/IO.h:7-51)

    One worker thread, any number of threads inserting jobs, one thread calling flush again and again, and the destructor.
    Each step makes one access to what the threads share; the uses of jobs (push, try_pop, empty) are single steps, as
    threadsafe_queue locks its own mutex for each of them (execution/Concurrency.h:35-39, 74-80, 88-91; that it is linearizable is C83).
    Jobs are numbers; a job may insert further jobs while it runs.  Simplified: one flushing thread; jobs do not throw; the
    access to bRunning, which is neither atomic nor guarded, is taken to be sequentially consistent; instance() is one object. *)
From Coq Require Import Arith List.
Import ListNotations.

(** Where the worker (IO.h:13-19, with wait, 9-12, inlined) is.  [Test2] and [Fall] hold mut; at [Fall] the predicate was false
    and cv.wait is about to release mut and block; [Asleep] is blocked in it.  A notification before [Asleep] has no effect. *)
Inductive wpc := Loop (* 14 *) | Test1 (* 11, bRunning *) | Test2 (* 11, jobs.empty() *) | Fall (* 11 *) | Asleep (* 11 *) | Pop (* 16 *)
  | Exec (j : nat) (* 17 *) | Exited (* 18-19 *).
(** Where the destructor (IO.h:29-33) is. *)
Inductive dpc := DIdle | DTest (* 30 *) | DNotify (* 30 *) | DStop (* 31 *) | DJoin (* 32 *) | DDone (* 33 *).
(** Where the thread calling flush (IO.h:35-37) is. *)
Inductive fpc := FIdle | FTest (* 36 *) | FNotify (* 36 *) | FReturned (* 37 *).

(** The members of IO (IO.h:46-50): the flag, the jobs, and the places of the threads; [pending] counts the calls of insert_job between lines
    41 and 42.  For the statements: all jobs pushed so far, those that have run to the end, those pushed when flush was called
    last, and whether a job was pushed after destruction began. *)
Record state := State {
  running : bool; jobs : list nat; worker : wpc; dtor : dpc; flush : fpc; pending : nat;
  pushed : list nat; finished : list nat; asked : list nat; late : bool }.

(** IO() (IO.h:20-22) *)
Definition init : state := State true [] Loop DIdle FIdle 0 [] [] [] false.

(** What may happen next: a step of the worker, a push (IO.h:39-41), the notification that follows it (IO.h:42), the call of
    flush (IO.h:35) and its steps, the call of the destructor (IO.h:29) and its steps, a wake-up without notification. *)
Inductive act := Worker | Push (j : nat) | Notify | FlushCall | Flush | DtorCall | Dtor | Spurious.

(** cv.notify_all() (IO.h:30, 36, 42): the sleeper locks mut again and evaluates the predicate anew (IO.h:11). *)
Definition wake (w : wpc) : wpc := match w with Asleep => Test1 | _ => w end.

Definition set_worker (s : state) (w : wpc) : state :=  (* the worker (IO.h:13-19) goes to [w] *)
  State (running s) (jobs s) w (dtor s) (flush s) (pending s) (pushed s) (finished s) (asked s) (late s).
Definition set_dtor (s : state) (r : bool) (w : wpc) (d : dpc) : state :=  (* a step of IO.h:29-33 *)
  State r (jobs s) w d (flush s) (pending s) (pushed s) (finished s) (asked s) (late s).
Definition set_flush (s : state) (w : wpc) (f : fpc) (a : list nat) : state :=  (* a step of IO.h:35-37 *)
  State (running s) (jobs s) w (dtor s) f (pending s) (pushed s) (finished s) a (late s).

(** IO.h:9-19: one step of the worker; none while it sleeps or after it has returned. *)
Definition worker_step (s : state) : option state :=
  match worker s with
  | Loop => Some (set_worker s (if running s then Test1 else Exited))
  | Test1 => Some (set_worker s (if running s then Test2 else Pop))
  | Test2 => Some (set_worker s (match jobs s with [] => Fall | _ => Pop end))
  | Fall => Some (set_worker s Asleep)
  | Asleep => None
  | Pop => match jobs s with
           | [] => Some (set_worker s Loop)
           | j :: q => Some (State (running s) q (Exec j) (dtor s) (flush s) (pending s) (pushed s) (finished s) (asked s) (late s))
           end
  | Exec j => Some (State (running s) (jobs s) Loop (dtor s) (flush s) (pending s) (pushed s) (finished s ++ [j]) (asked s) (late s))
  | Exited => None
  end.
(** IO.h:38-41: needs mut, which the worker holds at [Test2] and [Fall].  Threads other than the worker do not insert once the destructor was called. *)
Definition may_push (s : state) : bool :=
  match worker s, dtor s with
  | Test2, _ => false
  | Fall, _ => false
  | Exec _, DDone => false
  | Exec _, _ => true
  | _, DIdle => true
  | _, _ => false
  end.
Definition push (s : state) (j : nat) : state :=  (* IO.h:39-41 *)
  State (running s) (jobs s ++ [j]) (worker s) (dtor s) (flush s) (S (pending s)) (pushed s ++ [j]) (finished s) (asked s)
    (match dtor s with DIdle => late s | _ => true end).
(** IO.h:29-33.  join (32) returns only after the worker has. *)
Definition dtor_step (s : state) : option state :=
  match dtor s with
  | DTest => Some (set_dtor s (running s) (worker s) (match jobs s with [] => DStop | _ => DNotify end))
  | DNotify => Some (set_dtor s (running s) (wake (worker s)) DTest)
  | DStop => Some (set_dtor s false (worker s) DJoin)
  | DJoin => match worker s with Exited => Some (set_dtor s (running s) Exited DDone) | _ => None end
  | _ => None
  end.
(** IO.h:35-37 *)
Definition flush_step (s : state) : option state :=
  match flush s with
  | FTest => Some (set_flush s (worker s) (match jobs s with [] => FReturned | _ => FNotify end) (asked s))
  | FNotify => Some (set_flush s (wake (worker s)) FTest (asked s))
  | _ => None
  end.

(** One step of the program (IO.h:7-51).  [spur]: whether the condition variable wakes up spuriously, as C++ permits but does not promise. *)
Definition step (spur : bool) (s : state) (a : act) : option state :=
  match a with
  | Worker => worker_step s
  | Push j => if may_push s then Some (push s j) else None
  | Notify => match pending s with
              | O => None
              | S n => Some (State (running s) (jobs s) (wake (worker s)) (dtor s) (flush s) n (pushed s) (finished s) (asked s) (late s))
              end
  | FlushCall => match flush s, dtor s with
                 | (FIdle | FReturned), DIdle => Some (set_flush s (worker s) FTest (pushed s))
                 | _, _ => None
                 end
  | Flush => flush_step s
  | DtorCall => match dtor s, flush s, pending s with
                | DIdle, (FIdle | FReturned), O => Some (set_dtor s (running s) (worker s) DTest)
                | _, _, _ => None
                end
  | Dtor => dtor_step s
  | Spurious => if spur then match worker s with Asleep => Some (set_worker s Test1) | _ => None end else None
  end.
Fixpoint run (spur : bool) (s : state) (l : list act) : option state :=  (* an interleaving of the threads using IO.h:7-51 *)
  match l with [] => Some s | a :: r => match step spur s a with Some s' => run spur s' r | None => None end end.
