(* Sequential queues and linearizability. *)
From Verif Require Import Prelude TqModel.

Section SPEC.
Context {A : Type}.

(* What one operation does to a sequential first-in first-out queue. *)
Inductive fifo : list A -> op A -> res A -> list A -> Prop :=
| fifo_push q v : fifo q (Push v) Done (q ++ [v])
| fifo_wait x q : fifo (x :: q) WaitPop (Value x) q
| fifo_try x q : fifo (x :: q) TryPop (Value x) q
| fifo_try_none : fifo [] TryPop Nothing []
| fifo_empty q b : (b = true <-> q = []) -> fifo q IsEmpty (Flag b) q.

(* The effects in a trace, taken in order, are a history of a sequential queue. *)
Inductive history : list A -> list (event A) -> list A -> Prop :=
| history_nil q : history q [] q
| history_effect q t o r q' es q'' : fifo q o r q' -> history q' es q'' -> history q (Effect t o r :: es) q''
| history_call q t o es q' : history q es q' -> history q (Call t o :: es) q'
| history_return q t r es q' : history q es q' -> history q (Return t r :: es) q'.

(* The events of one thread: every call has one effect, then returns its result;
   the last operation may be unfinished. *)
Definition thread_of (e : event A) : nat := match e with Call t _ | Effect t _ _ | Return t _ => t end.
Inductive orderly : list (event A) -> Prop :=
| orderly_nil : orderly []
| orderly_called t o : orderly [Call t o]
| orderly_took_effect t o r : orderly [Call t o; Effect t o r]
| orderly_returned t o r es : orderly es -> orderly (Call t o :: Effect t o r :: Return t r :: es).
Definition mine (t : nat) (es : list (event A)) : list (event A) := filter (fun e => Nat.eqb (thread_of e) t) es.

(* The values pushed and popped, in the order of the effects. *)
Fixpoint pushed (es : list (event A)) : list A :=
  match es with Effect _ (Push v) _ :: es => v :: pushed es | _ :: es => pushed es | [] => [] end.
Fixpoint popped (es : list (event A)) : list A :=
  match es with Effect _ _ (Value v) :: es => v :: popped es | _ :: es => popped es | [] => [] end.
End SPEC.
