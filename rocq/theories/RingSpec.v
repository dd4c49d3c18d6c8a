(** Specification of RingBuffer: a bounded deque (oldest element first).
    It reuses only the type of operation names from the model. *)
From Verif Require Import Prelude RingModel.

Section DequeSpec.
  Context {T : Type}.
  Variable cap : nat.

  (** keep the [cap] newest elements *)
  Definition window (l : list T) : list T := skipn (length l - cap) l.

  (** One operation.  push_back() without argument appends an unspecified value. *)
  Definition dq_step (o : rop T) (l l' : list T) : Prop :=
    match o with
    | OPush x => l' = window (l ++ [x])
    | OPushRaw => exists x, l' = window (l ++ [x])
    | OPop => l' = removelast l
    end.

  Inductive dq_run : list (rop T) -> list T -> list T -> Prop :=
  | dq_nil l : dq_run [] l l
  | dq_cons o os l l1 l2 : dq_step o l l1 -> dq_run os l1 l2 -> dq_run (o :: os) l l2.
End DequeSpec.
