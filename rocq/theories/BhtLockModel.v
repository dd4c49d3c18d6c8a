(** Model of the slot accesses of Bht.hpp for keys that are neither 4 nor 8 bytes: atomicSwitchIfEqual (1004-1020) and atomicLoad
    (1056-1071).  One slot of [dim] components and its lock word (status_sentinel_v = -1 free, 0 taken: true / false here); a step of a
    thread is one access of the lock or of one component. Simplification: sequentially consistent memory (the code has thread fences). *)
From Verif Require Import Prelude.
Local Open Scope nat_scope.
Section M.
Context {V : Type}.
Variable veq : forall a b : V, {a = b} + {a <> b}.
Variable sent : list V.                 (* key_sentinel_v *)
Inductive op := Load | Switch (k : list V).
Inductive result := Value (k : list V) | Switched (b : bool).
(** in the spin loop (1004/1056); copying component d (1008/1060); writing component d (1011); at the unlock (1015/1063) *)
Inductive pc := Spin (o : op) | Copy (o : op) (d : nat) (acc : list V) | Write (k : list V) (d : nat) | Unlock (o : op) (r : result).
Record slot := { free : bool; val : list V }.
Inductive outcome := Goto (s : slot) (p : pc) | Return (s : slot) (o : op) (r : result) | Undef.
Definition step_op (s : slot) (p : pc) : outcome :=
  match p with
  | Spin o => if free s then Goto {| free := false; val := val s |} (Copy o 0 []) else Goto s (Spin o)      (* atomic_exch(lock, 0) == 0 *)
  | Copy o d acc =>
      if d =? length sent
      then match o with
           | Load => Goto s (Unlock Load (Value acc))
           | Switch k => if list_eq_dec veq acc sent then Goto s (Write k 0) else Goto s (Unlock (Switch k) (Switched false))   (* 1009-1010 *)
           end
      else match nth_error (val s) d with None => Undef | Some x => Goto s (Copy o (S d) (acc ++ [x])) end
  | Write k d =>
      if d =? length sent then Goto s (Unlock (Switch k) (Switched true))
      else match nth_error k d with
           | None => Undef
           | Some x => match upd (val s) d x with None => Undef | Some v => Goto {| free := free s; val := v |} (Write k (S d)) end
           end
  | Unlock o r => Return {| free := true; val := val s |} o r                                                 (* atomic_exch(lock, -1) *)
  end.
Record thread := { cur : option pc; todo : list op }.
Record state := { sl : slot; threads : list thread; log : list (op * result) }.
Definition begin (th : thread) : option pc := match cur th with Some p => Some p | None => match todo th with [] => None | o :: _ => Some (Spin o) end end.
Definition rest (th : thread) : list op := match cur th with Some _ => todo th | None => tl (todo th) end.
Inductive step : state -> state -> Prop :=
| StepG s i th p s' p' ths : nth_error (threads s) i = Some th -> begin th = Some p -> step_op (sl s) p = Goto s' p' ->
    upd (threads s) i {| cur := Some p'; todo := rest th |} = Some ths -> step s {| sl := s'; threads := ths; log := log s |}
| StepR s i th p s' o r ths : nth_error (threads s) i = Some th -> begin th = Some p -> step_op (sl s) p = Return s' o r ->
    upd (threads s) i {| cur := None; todo := rest th |} = Some ths -> step s {| sl := s'; threads := ths; log := log s ++ [(o, r)] |}.
Inductive steps : state -> state -> Prop :=
| Steps0 s : steps s s
| StepsS s s' s'' : steps s s' -> step s' s'' -> steps s s''.
Definition init (v : list V) (progs : list (list op)) : state :=
  {| sl := {| free := true; val := v |}; threads := map (fun p => {| cur := None; todo := p |}) progs; log := [] |}.
Definition crashes (s : state) : Prop := exists th p, In th (threads s) /\ begin th = Some p /\ step_op (sl s) p = Undef.
End M.
