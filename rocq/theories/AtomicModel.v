(** Model of the host atomics of execution/Atomics.hpp: atomic_add_impl (61-73), atomic_exch (170-200), atomic_cas (235-289),
    atomic_max (326-341), atomic_min (373-388).  One shared location; each thread performs a list of calls.  A step of a thread is one
    access of the location together with the thread-local work up to the next access.  The location holds bit patterns [W]; the builtin
    compare-exchange compares bit patterns ([weq], Atomics.hpp 261-276), the loops of atomic_max/atomic_min compare values with != and <
    ([vne], [vlt]), which for floating point is not the same comparison.  Accesses are sequentially consistent (a simplification: the
    code uses acq_rel for compare-exchange, and a volatile read for the first load; there is a single location). *)
From Verif Require Import Prelude.

Section A.
Context {W : Type}.
Variable weq : forall a b : W, {a = b} + {a <> b}.
Variable vne vlt : W -> W -> bool.
Variable plus : W -> W -> W.

(** the calls: atomic_add (Atomics.hpp 61-73), atomic_max (326-341), atomic_min (373-388), atomic_exch (170-200) *)
Inductive op := Add (v : W) | Max (v : W) | Min (v : W) | Exch (v : W).
(** where a thread is: between calls, in the loop of atomic_add_impl with oldVal, in the loop of atomic_max/min with assumed *)
Inductive pc := Idle | AddLoop (v old : W) | MaxLoop (v assumed : W) | MinLoop (v assumed : W).
Record thread := { at_ : pc; todo : list op }.
(** outcome of a step: new location, new pc, and the call that returned with its value *)
Definition outcome := (W * pc * option (op * W))%type.

(** atomic_cas (235-289): returns the value read *)
Definition cas (cell expected desired : W) : W * W := (cell, if weq cell expected then desired else cell).
(** head of the loop of atomic_max (335-338): exit when not assumed < val, else stay in the loop *)
Definition max_head (cell v old : W) : outcome := if vlt old v then (cell, MaxLoop v old, None) else (cell, Idle, Some (Max v, old)).
(** head of the loop of atomic_min (382-385), assumed > val *)
Definition min_head (cell v old : W) : outcome := if vlt v old then (cell, MinLoop v old, None) else (cell, Idle, Some (Min v, old)).
(** first access of a call *)
Definition start (cell : W) (o : op) : outcome :=
  match o with
  | Add v => (cell, AddLoop v cell, None)                  (* 65-66: load oldVal, compute newVal *)
  | Max v => max_head cell v cell                          (* 332-334: T old = *dest *)
  | Min v => min_head cell v cell                          (* 379-381 *)
  | Exch v => (v, Idle, Some (Exch v, cell))               (* 191: __atomic_exchange_n *)
  end.
(** next access of a pending call *)
Definition continue_ (cell : W) (p : pc) : outcome :=
  match p with
  | Idle => (cell, Idle, None)
  | AddLoop v old => let '(r, cell') := cas cell old (plus old v) in      (* 67-71 *)
      if weq r old then (cell', Idle, Some (Add v, old)) else (cell', AddLoop v r, None)
  | MaxLoop v a => let '(old, cell') := cas cell a v in                   (* 335: (old = cas) != assumed *)
      if vne old a then max_head cell' v old else (cell', Idle, Some (Max v, old))
  | MinLoop v a => let '(old, cell') := cas cell a v in
      if vne old a then min_head cell' v old else (cell', Idle, Some (Min v, old))
  end.
(** one step of a thread; None if it has finished *)
Definition thread_step (cell : W) (t : thread) : option (W * thread * option (op * W)) :=
  match at_ t with
  | Idle => match todo t with
            | [] => None
            | o :: r => let '(c, p, ret) := start cell o in Some (c, {| at_ := p; todo := r |}, ret)
            end
  | p => let '(c, p', ret) := continue_ cell p in Some (c, {| at_ := p'; todo := todo t |}, ret)
  end.
(** the machine: any thread may step; the log lists the calls in the order in which they return *)
Record state := { cell : W; threads : list thread; log : list (nat * op * W) }.
Inductive step : state -> state -> Prop :=
| Step s i t c t' ret ts : nth_error (threads s) i = Some t -> thread_step (cell s) t = Some (c, t', ret) -> upd (threads s) i t' = Some ts ->
    step s {| cell := c; threads := ts; log := match ret with Some (o, v) => log s ++ [(i, o, v)] | None => log s end |}.
Inductive steps : nat -> state -> state -> Prop :=
| Steps0 s : steps 0 s s
| StepsS n s s' s'' : steps n s s' -> step s' s'' -> steps (S n) s s''.
Definition init (c : W) (progs : list (list op)) : state := {| cell := c; threads := map (fun p => {| at_ := Idle; todo := p |}) progs; log := [] |}.
Definition finished (s : state) : Prop := forall t, In t (threads s) -> at_ t = Idle /\ todo t = [].
End A.
Arguments Add {W}. Arguments Max {W}. Arguments Min {W}. Arguments Exch {W}.
