(* zs::Owner<Type>, the variant for types without a default constructor
   (ZpcImplPattern.hpp 521-665): in-place storage plus an _active flag.

   Objects of Type are identified by the number they got when constructed; events
   as in FnModel.  [assignable] says whether Type is copy/move assignable
   (otherwise assignment is destroy + create).

   C++ facts used: a constructor (assignment operator) template is never a copy
   constructor (copy assignment operator); the class declares a destructor and only
   templates besides, so the implicit copy constructor and copy assignment exist, copy
   _storage's bytes and _active, and win overload resolution for lvalue sources
   over the equally good templates.  For rvalue sources the templates taking Owner&& are
   better matches.

   SIMPLIFICATIONS: the value of an object is an integer or "moved from"; only
   creating can throw. *)
From Verif Require Import Prelude FnModel.

(** the members _storage and _active (ZpcImplPattern.hpp 521-665) *)
Record owner := mkOwner { oid : nat; oval : option Z; active : bool }.
(* 541: Owner() : _storage{}, _active{false} *)
Definition empty_owner : owner := mkOwner 0 None false.

(** scaffolding: the variables of type Owner and the trace *)
Record ostate := mkO { oslots : list owner; ofresh : nat; otrace : list event }.

(** the uses of Owner (ZpcImplPattern.hpp 521-665) *)
Inductive oop :=
| SetValue (d : nat) (v : Z) (throws : bool)   (* owner = Type value *)
| SetOwn (d : nat)                             (* owner = owner.get() *)
| CopyOwner (d s : nat)                        (* owner = other *)
| MoveOwner (d s : nat)                        (* owner = std::move(other) *)
| MoveInit (d s : nat)                         (* Owner owner{std::move(other)}, the old owner's life over *)
| CopyInit (d s : nat)                         (* Owner owner{other}, the old owner's life over *)
| ResetOwner (d : nat).                        (* reset() / ~Owner() *)

(** scaffolding: a variable of type Owner *)
Definition oget (st : ostate) (d : nat) : option owner := nth_error (oslots st) d.
(** scaffolding: storing into a variable, with the events *)
Definition oput (st : ostate) (d : nat) (f : owner) (n : nat) (ev : list event) : ostate :=
  mkO (setn (oslots st) d f) n (otrace st ++ ev).

(* 565-571 reset, 572 ~Owner *)
Definition release (f : owner) : list event := if active f then [Dtor (oid f)] else [].

Section Type_.
Variable assignable : bool.

(* 574-596 operator=(const Type&), 597-618 operator=(Type&&), from an object
   outside any owner.  Returns the new owner, the next number, the events and
   whether it threw. *)
Definition assign_value (f : owner) (v : option Z) (n : nat) (throws : bool) : owner * nat * list event * bool :=
  if assignable then
    if active f then (mkOwner (oid f) v true, n, [Read (oid f)], false)
    else if throws then (f, n, [], true)
    else (mkOwner n v true, S n, [Ctor n], false)
  else
    let ev := release f in
    if throws then (f, n, ev, true)
    else (mkOwner n v true, S n, ev ++ [Ctor n], false).

(** one use of Owner (ZpcImplPattern.hpp 521-665) *)
Definition ostep (st : ostate) (o : oop) : option (ostate * bool) :=
  match o with
  | SetValue d v throws =>
      match oget st d with
      | None => None
      | Some f => let '(f', n', ev, t) := assign_value f (Some v) (ofresh st) throws in
                  Some (oput st d f' n' ev, t)
      end
  | SetOwn d =>
      (* operator=(const Type&) with obj the object inside: 582-585 destroys it
         before copying from it when Type is not assignable *)
      match oget st d with
      | None => None
      | Some f =>
          if assignable then Some (oput st d f (ofresh st) [Read (oid f)], false)
          else Some (oput st d (mkOwner (ofresh st) (oval f) true) (S (ofresh st))
                       (release f ++ [Read (oid f); Ctor (ofresh st)]), false)
      end
  | CopyOwner d s =>
      (* the implicit copy assignment: bytes and flag *)
      match oget st d, oget st s with
      | Some f, Some g => Some (oput st d g (ofresh st) [], false)
      | _, _ => None
      end
  | MoveOwner d s =>
      (* 635-651 operator=(Owner&&); the source stays active *)
      match oget st d, oget st s with
      | Some f, Some g =>
          if Nat.eqb d s then Some (st, false)
          else if active g then
            let '(f', n', ev, t) := assign_value f (oval g) (ofresh st) false in
            let st1 := oput st d f' n' (Read (oid g) :: ev) in
            Some (oput st1 s (mkOwner (oid g) None true) n' [], t)
          else Some (oput st d (mkOwner (oid f) (oval f) false) (ofresh st) (release f), false)
      | _, _ => None
      end
  | MoveInit d s =>
      (* 554-558 Owner(Owner&&) after ~Owner of slot d *)
      match oget st d, oget st s with
      | Some f, Some g =>
          if Nat.eqb d s then None
          else if active g then
            let '(f', n', ev, t) := assign_value empty_owner (oval g) (ofresh st) false in
            let st1 := oput st d f' n' (release f ++ Read (oid g) :: ev) in
            Some (oput st1 s (mkOwner (oid g) None true) n' [], t)
          else Some (oput st d empty_owner (ofresh st) (release f), false)
      | _, _ => None
      end
  | CopyInit d s =>
      (* the implicit copy constructor after ~Owner of slot d *)
      match oget st d, oget st s with
      | Some f, Some g => if Nat.eqb d s then None else Some (oput st d g (ofresh st) (release f), false)
      | _, _ => None
      end
  | ResetOwner d =>
      match oget st d with
      | None => None
      | Some f => Some (oput st d (mkOwner (oid f) (oval f) false) (ofresh st) (release f), false)
      end
  end.

(** scaffolding: a sequence of uses (ZpcImplPattern.hpp 521-665) *)
Fixpoint orun (st : ostate) (ops : list oop) : option (ostate * list bool) :=
  match ops with
  | [] => Some (st, [])
  | o :: os =>
      match ostep st o with
      | None => None
      | Some (st1, t) => match orun st1 os with None => None | Some (st2, ts) => Some (st2, t :: ts) end
      end
  end.
End Type_.

(** scaffolding: n empty owners (ZpcImplPattern.hpp 541) *)
Definition oinit (n : nat) : ostate := mkO (repeat empty_owner n) 0 [].
