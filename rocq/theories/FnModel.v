(* zs::function (ZpcFunction.hpp 106-252): who owns the stored callable.

   A callable object is identified by the number it got when it was constructed.
   The operations emit the events the C++ code performs on callable objects;
   whether the trace is legal (nothing destroyed twice, nothing used after its
   destruction) is judged by the separate specification FnSpec.

   SIMPLIFICATIONS: a callable is its tag, whether its type is copyable, and
   whether it keeps a pointer into itself while fitting the 16-byte storage (so
   that copying its bytes is not a move); _erasedFn and _manageFn are set and
   cleared together in every path, so one flag [engaged] stands for both;
   allocation never fails. *)
From Verif Require Import Prelude.

(** a user callable given to zs::function (ZpcFunction.hpp 106-252) *)
Record callable := mkCallable { tag : Z; copyable : bool; selfref : bool }.

(* What the storage holds: an Owner<F> / Unique<F> of a user callable (126-138,
   115-125), or the Unique<function> that assigning from a non-const function
   lvalue creates (150-186 with F = function &: a function does not fit into 16 bytes). *)
Inductive target :=
| Leaf (id : nat) (c : callable)
| Wrap (id : nat) (inner : option target).

(** scaffolding: what is observed of the callables (ZpcFunction.hpp 106-252) *)
Inductive event :=
| Ctor (id : nat)        (* callable object constructed *)
| Dtor (id : nat)        (* callable object destroyed *)
| Read (id : nat)        (* copied from or invoked *)
| Memcpy (id : nat).     (* a self-referencing object's bytes copied elsewhere *)

(* 249-251: _storage bits and the two function pointers.  The bits survive
   destruction and being moved from. *)
Record fn := mkFn { bits : option target; engaged : bool }.
Definition empty_fn : fn := mkFn None false.

(* manage_op_e::destruct (169-170, 191-192); a Unique<function> runs ~function
   of the wrapped one (141-143). *)
Fixpoint destroy (t : target) : list event :=
  match t with
  | Leaf id _ => [Dtor id]
  | Wrap id None => [Dtor id]
  | Wrap id (Some u) => destroy u ++ [Dtor id]
  end.

(* manage_op_e::clone (171-180, 193-203): throws StaticException for a
   non-copyable callable; a Unique<function> copy-constructs (208-210) the
   wrapped function. *)
Fixpoint clone (t : target) (next : nat) : list event * option (target * nat) :=
  match t with
  | Leaf id c => if copyable c then ([Read id; Ctor next], Some (Leaf next c, S next)) else ([], None)
  | Wrap id None => ([Read id; Ctor next], Some (Wrap next None, S next))
  | Wrap id (Some u) =>
      let (ev, r) := clone u next in
      match r with
      | Some (u', n') => (Read id :: ev ++ [Ctor n'], Some (Wrap n' (Some u'), S n'))
      | None => (Read id :: ev, None)
      end
  end.

(** scaffolding: the variables of type zs::function (ZpcFunction.hpp 106-252) and the trace *)
Record state := mkState { slots : list fn; fresh : nat; trace : list event }.

(* ~function's and operator='s "if (_manageFn) destruct" (142, 153). *)
Definition drop (f : fn) : list event :=
  if engaged f then match bits f with Some t => destroy t | None => [] end else [].

(* operator()(Args...) (243-246): throws when empty; otherwise invokes through
   the stored callable, which for a wrapped function is this operator again. *)
Fixpoint invoke (t : target) : list event * option Z :=
  match t with
  | Leaf id c => ([Read id], Some (tag c))
  | Wrap id None => ([Read id], None)
  | Wrap id (Some u) => let (ev, r) := invoke u in (Read id :: ev, r)
  end.

(** the uses of zs::function (ZpcFunction.hpp 106-252) *)
Inductive op :=
| SetCallable (d : nat) (c : callable) (throws : bool)  (* slot = callable; its copy/move ctor may throw *)
| CopyAssign (d s : nat)                                 (* slot = std::as_const(other) *)
| LvalueAssign (d s : nat)                               (* slot = other *)
| MoveAssign (d s : nat)                                 (* slot = std::move(other) *)
| Call (d : nat)
| Reset (d : nat).                                       (* end of the slot's life, fresh empty function *)

(** scaffolding: how a use ends (ZpcFunction.hpp 243-246 returns a value or throws) *)
Inductive outcome := Done | Value (v : Z) | Threw.

(** scaffolding: an assignment to a variable *)
Fixpoint setn {A} (l : list A) (d : nat) (x : A) : list A :=
  match l, d with
  | [], _ => []
  | _ :: l', O => x :: l'
  | y :: l', S d' => y :: setn l' d' x
  end.
(** scaffolding: a variable of type zs::function (ZpcFunction.hpp 106-252) *)
Definition get (st : state) (d : nat) : option fn := nth_error (slots st) d.
(** scaffolding: storing into a variable, with the events *)
Definition put (st : state) (d : nat) (f : fn) (n : nat) (ev : list event) : state :=
  mkState (setn (slots st) d f) n (trace st ++ ev).

(** one use of zs::function (ZpcFunction.hpp 106-252) *)
Definition step (st : state) (o : op) : option (state * outcome) :=
  match o with
  | SetCallable d c throws =>
      (* 150-206, F a user callable *)
      match get st d with
      | None => None
      | Some f =>
          if throws
          then (* create<FuncOwner>(FWD(f)) throws: the pointers keep their old values *)
               Some (put st d f (fresh st) (drop f), Threw)
          else Some (put st d (mkFn (Some (Leaf (fresh st) c)) true) (S (fresh st)) (drop f ++ [Ctor (fresh st)]), Done)
      end
  | CopyAssign d s =>
      (* 211-219 *)
      match get st d, get st s with
      | Some f, Some g =>
          if Nat.eqb d s then Some (st, Done)
          else if engaged g then
            match bits g with
            | Some t =>
                let (ev, r) := clone t (fresh st) in
                match r with
                | Some (t', n') => Some (put st d (mkFn (Some t') true) n' ev, Done)
                | None => Some (put st d f (fresh st) ev, Threw)
                end
            | None => None
            end
          else Some (put st d (mkFn (bits f) false) (fresh st) [], Done)
      | _, _ => None
      end
  | LvalueAssign d s =>
      (* 150-158, 181-205 with F = function &: ::new function(g) *)
      match get st d, get st s with
      | Some f, Some g =>
          let ev0 := drop f in
          if engaged g then
            match bits g with
            | Some t =>
                let (ev, r) := clone t (fresh st) in
                match r with
                | Some (t', n') =>
                    Some (put st d (mkFn (Some (Wrap n' (Some t'))) true) (S n') (ev0 ++ ev ++ [Ctor n']), Done)
                | None => Some (put st d f (fresh st) (ev0 ++ ev), Threw)
                end
            | None => None
            end
          else Some (put st d (mkFn (Some (Wrap (fresh st) None)) true) (S (fresh st)) (ev0 ++ [Ctor (fresh st)]), Done)
      | _, _ => None
      end
  | MoveAssign d s =>
      (* 222-231: memcpy of the storage *)
      match get st d, get st s with
      | Some f, Some g =>
          if Nat.eqb d s then Some (st, Done)
          else
            let ev := match engaged g, bits g with
                      | true, Some (Leaf id c) => if selfref c then [Memcpy id] else []
                      | _, _ => [] end in
            let st1 := put st d g (fresh st) ev in
            Some (put st1 s (mkFn (bits g) false) (fresh st) [], Done)
      | _, _ => None
      end
  | Call d =>
      match get st d with
      | None => None
      | Some f =>
          if engaged f then
            match bits f with
            | Some t => let (ev, r) := invoke t in
                        Some (put st d f (fresh st) ev, match r with Some v => Value v | None => Threw end)
            | None => None
            end
          else Some (st, Threw)
      end
  | Reset d =>
      match get st d with
      | None => None
      | Some f => Some (put st d empty_fn (fresh st) (drop f), Done)
      end
  end.

(* 241 explicit operator bool *)
Definition truthy (f : fn) : bool := engaged f.

(** scaffolding: n empty functions (ZpcFunction.hpp 106-252) *)
Definition init (n : nat) : state := mkState (repeat empty_fn n) 0 [].

(** scaffolding: a sequence of uses (ZpcFunction.hpp 106-252) *)
Fixpoint run (st : state) (ops : list op) : option (state * list outcome) :=
  match ops with
  | [] => Some (st, [])
  | o :: os =>
      match step st o with
      | None => None
      | Some (st1, out) =>
          match run st1 os with
          | None => None
          | Some (st2, outs) => Some (st2, out :: outs)
          end
      end
  end.
