(* Model of concurrent_map, execution/Concurrency.h 93-137, used by any number of
   threads at once, together with the use its callers make of the references and
   pointers returned by get and find.
   Simplifications: sequentially consistent interleaving; the std::map is a list of
   nodes in the order of their allocation, an erased node leaves its address unused
   for ever; the body of an operation between locking and unlocking is one step, the
   time it takes is the time its thread spends in [Within]; get on a missing key throws,
   which is reported like find's null pointer; emplace takes a key and a value;
   begin and end are left out. *)
From Verif Require Import Prelude.

Section CMAP.
Context {K V : Type} (eqk : forall a b : K, {a = b} + {a <> b}).

(** the calls of concurrent_map (Concurrency.h 93-137) *)
Inductive op := Set_ (k : K) (v : V) | Erase (k : K) | Emplace (k : K) (v : V) | Find (k : K).
(** what they return (Concurrency.h 93-137) *)
Inductive res := Unit | Inserted (b : bool) | Ptr (p : option nat).
(** where a call is (Concurrency.h 93-137) *)
Inductive pc :=
| Idle
| Enter (o : op)        (* about to lock _rw *)
| Within (o : op)           (* holds _rw: shared for Find, unique otherwise *)
| Out (o : op) (r : res)(* body done, still holds _rw *)
| Deref (p : nat).      (* reading *p, holding no lock *)
Record state := State { nodes : list (option (K * V)); pcs : list pc }.
Inductive event := Did (t : nat) (o : op) (r : res) | Read (t : nat) (p : nat) (v : option V). (* None: freed memory *)
Inductive act := Start (o : op) | Go | Use (p : nat).

(** scaffolding: the entry with key k (std::map of Concurrency.h 98) *)
Definition node_of (k : K) (n : option (K * V)) : bool :=
  match n with Some (k', _) => if eqk k k' then true else false | None => false end.
(* the address of k's node *)
Fixpoint lookup (k : K) (l : list (option (K * V))) : option nat :=
  match l with [] => None | n :: l => if node_of k n then Some 0 else option_map S (lookup k l) end.
Fixpoint store (l : list (option (K * V))) (i : nat) (n : option (K * V)) : list (option (K * V)) :=
  match l, i with [], _ => [] | _ :: l, 0 => n :: l | x :: l, S i => x :: store l i n end.

(* execution/Concurrency.h 105-136, what happens under the lock *)
Definition body (o : op) (l : list (option (K * V))) : list (option (K * V)) * res :=
  match o with
  | Set_ k v => (match lookup k l with Some i => store l i (Some (k, v)) | None => l ++ [Some (k, v)] end, Unit)
  | Erase k => (match lookup k l with Some i => store l i None | None => l end, Unit)
  | Emplace k v => match lookup k l with Some _ => (l, Inserted false) | None => (l ++ [Some (k, v)], Inserted true) end
  | Find k => (l, Ptr (lookup k l))
  end.
Definition writes (o : op) : bool := match o with Find _ => false | _ => true end.
(* may lock: no unique owner, and no owner at all for a unique lock *)
Definition blocks (o : op) (p : pc) : bool :=
  match p with Within o' | Out o' _ => writes o || writes o' | _ => false end.

(** scaffolding: one step of a thread in a call (Concurrency.h 93-137) *)
Definition step (s : state) (t : nat) (a : act) : option (state * list event) :=
  let put l p e := option_map (fun ps => (State l ps, e)) (upd (pcs s) t p) in
  match nth_error (pcs s) t, a with
  | Some Idle, Start o => put (nodes s) (Enter o) []
  | Some (Enter o), Go => if existsb (blocks o) (pcs s) then None else put (nodes s) (Within o) []
  | Some (Within o), Go => let '(l, r) := body o (nodes s) in put l (Out o r) [Did t o r]
  | Some (Out o r), Go => put (nodes s) Idle []
  | Some Idle, Use p => put (nodes s) (Deref p) []
  | Some (Deref p), Go =>
      put (nodes s) Idle [Read t p (match nth_error (nodes s) p with Some (Some (_, v)) => Some v | _ => None end)]
  | _, _ => None
  end.

(** scaffolding: n threads and an empty map (Concurrency.h 98) *)
Definition start (n : nat) : state := State [] (repeat Idle n).
(** scaffolding: interleavings (Concurrency.h 93-137) *)
Inductive run : state -> list event -> state -> Prop :=
| run_nil s : run s [] s
| run_step s es s' t a e s'' : run s es s' -> step s' t a = Some (s'', e) -> run s (es ++ e) s''.
End CMAP.
Arguments op : clear implicits.
Arguments pc : clear implicits.
Arguments state : clear implicits.
Arguments event : clear implicits.
Arguments act : clear implicits.
