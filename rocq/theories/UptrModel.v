(** Model of ZpcResource.hpp: UniquePtr (lines 36-147).
    Objects and deleters are identified by numbers; a UniquePtr variable by a number too.
    Addresses are identities: an object is never re-created after its deletion. *)
From Verif Require Import Prelude.

(** Observable events: raw pointer handed to a UniquePtr with deleter [d]; raw pointer returned to the
    caller by release(); deleter [d] called on an object. *)
Inductive ev := EHand (o d : nat) | ERel (o : nat) | EDel (o d : nat).

(** A live UniquePtr stores deleter and pointer (_storage). [None] outside: variable not alive. *)
Record ust := mkU { u_var : nat -> option (option nat * nat); u_tr : list ev }.

(** scaffolding: an assignment to a variable *)
Definition fset {A} (f : nat -> A) (i : nat) (x : A) : nat -> A := fun j => if j =? i then x else f j.

(** scaffolding: no UniquePtr (ZpcResource.hpp 36-147) alive *)
Definition u_init : ust := mkU (fun _ => None) [].

(** scaffolding: an observed event *)
Definition emit (s : ust) (e : list ev) : ust := mkU (u_var s) (u_tr s ++ e).
(** scaffolding: storing into the variable v (_storage, ZpcResource.hpp 36-147) *)
Definition setv (s : ust) v x : ust := mkU (fset (u_var s) v x) (u_tr s).

(** Constructor UniquePtr(pointer, deleter) (ZpcResource.hpp:58-66). [p = None] also covers 43,47. *)
Definition u_new (s : ust) v (p : option nat) (d : nat) : option ust :=
  match u_var s v with
  | Some _ => None
  | None => Some (emit (setv s v (Some (p, d))) (match p with Some o => [EHand o d] | None => [] end))
  end.

(** release() (ZpcResource.hpp:139-141): returns the pointer and stores nullptr. *)
Definition u_release (s : ust) v : option (option nat * ust) :=
  match u_var s v with
  | None => None
  | Some (p, d) => Some (p, setv s v (Some (None, d)))
  end.

(** reset(p) (ZpcResource.hpp:143-146): exchange first, then delete the old pointer with the own deleter. *)
Definition u_reset (s : ust) v (p : option nat) : option ust :=
  match u_var s v with
  | None => None
  | Some (old, d) =>
    let s1 := setv s v (Some (p, d)) in
    Some (match old with Some o => emit s1 [EDel o d] | None => s1 end)
  end.

(** move constructor (ZpcResource.hpp:78-79). *)
Definition u_movector (s : ust) v w : option ust :=
  match u_var s v with
  | Some _ => None
  | None =>
    match u_var s w with
    | None => None
    | Some (_, d) =>
      match u_release s w with
      | None => None
      | Some (p, s1) => Some (setv s1 v (Some (p, d)))
      end
    end
  end.

(** move assignment (ZpcResource.hpp:81-85): reset(o.release()), then the deleter is moved. *)
Definition u_moveassign (s : ust) v w : option ust :=
  match u_var s v with
  | None => None
  | Some _ =>
    match u_release s w with
    | None => None
    | Some (p, s1) =>
      match u_reset s1 v p with
      | None => None
      | Some s2 =>
        match u_var s2 v, u_var s2 w with
        | Some (pv, _), Some (_, dw) => Some (setv s2 v (Some (pv, dw)))
        | _, _ => None
        end
      end
    end
  end.

(** swap (ZpcResource.hpp:106-109). *)
Definition u_swap (s : ust) v w : option ust :=
  match u_var s v, u_var s w with
  | Some a, Some b => Some (setv (setv s v (Some b)) w (Some a))
  | _, _ => None
  end.

(** destructor (ZpcResource.hpp:111-116). *)
Definition u_destroy (s : ust) v : option ust :=
  match u_var s v with
  | None => None
  | Some (p, d) =>
    let s1 := setv s v None in
    Some (match p with Some o => emit s1 [EDel o d] | None => s1 end)
  end.

(** the uses of UniquePtr (ZpcResource.hpp 36-147) *)
Inductive uop :=
| UNew (v : nat) (p : option nat) (d : nat)
| UMoveCtor (v w : nat)
| UMoveAssign (v w : nat)
| USwap (v w : nat)
| URelease (v : nat)
| UReset (v : nat) (p : option nat)
| UDestroy (v : nat).

(** One call of the public interface; [None]: a dead variable is used or a live one is constructed. *)
Definition u_step (s : ust) (o : uop) : option ust :=
  match o with
  | UNew v p d => u_new s v p d
  | UMoveCtor v w => u_movector s v w
  | UMoveAssign v w => u_moveassign s v w
  | USwap v w => u_swap s v w
  | URelease v => match u_release s v with
                  | None => None
                  | Some (p, s1) => Some (emit s1 (match p with Some o => [ERel o] | None => [] end))
                  end
  | UReset v p =>
      match u_var s v with
      | None => None
      | Some (_, d) =>
          u_reset (emit s (match p with Some o => [EHand o d] | None => [] end)) v p
      end
  | UDestroy v => u_destroy s v
  end.
