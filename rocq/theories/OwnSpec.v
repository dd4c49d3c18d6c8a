(* Values of owners: empty, a value, or a moved-from object. *)
From Verif Require Import Prelude FnModel OwnModel.

Notation content := (option (option Z)) (only parsing).   (* None: empty; Some None: moved from *)

Definition oexpect (vs : list content) (o : oop) : option (list content * bool) :=
  match o with
  | SetValue d v throws =>
      match nth_error vs d with
      | Some _ => Some (if throws then (vs, true) else (setn vs d (Some (Some v)), false))
      | None => None end
  | SetOwn d => match nth_error vs d with Some (Some _) => Some (vs, false) | _ => None end
  | CopyOwner d s | CopyInit d s =>
      match nth_error vs d, nth_error vs s with Some _, Some w => Some (setn vs d w, false) | _, _ => None end
  | MoveOwner d s =>
      match nth_error vs d, nth_error vs s with
      | Some _, Some w =>
          if Nat.eqb d s then Some (vs, false)
          else match w with
               | Some x => Some (setn (setn vs d (Some x)) s (Some None), false)
               | None => Some (setn vs d None, false) end
      | _, _ => None end
  | MoveInit d s =>
      match nth_error vs d, nth_error vs s with
      | Some _, Some w =>
          if Nat.eqb d s then None
          else match w with
               | Some x => Some (setn (setn vs d (Some x)) s (Some None), false)
               | None => Some (setn vs d None, false) end
      | _, _ => None end
  | ResetOwner d => match nth_error vs d with Some _ => Some (setn vs d None, false) | None => None end
  end.

(* Excluded uses: copying a full owner or copying over a full one, a
   constructor that throws where the old object has already been destroyed (or is kept:
   assigning to a full owner of an assignable type does not construct), assigning a non-assignable
   object to itself. *)
Definition otame (assignable : bool) (vs : list content) (o : oop) : Prop :=
  match o with
  | SetValue d v throws => throws = true -> nth_error vs d = Some None
  | SetOwn d => assignable = true
  | CopyOwner d s => d = s \/ (nth_error vs s = Some None /\ nth_error vs d = Some None)
  | CopyInit d s => d <> s /\ nth_error vs s = Some None
  | MoveOwner _ _ | MoveInit _ _ | ResetOwner _ => True
  end.

Fixpoint oexpect_all (vs : list content) (ops : list oop) : option (list content * list bool) :=
  match ops with
  | [] => Some (vs, [])
  | o :: os =>
      match oexpect vs o with
      | None => None
      | Some (vs1, t) => match oexpect_all vs1 os with None => None | Some (vs2, ts) => Some (vs2, t :: ts) end
      end
  end.
Fixpoint oall_tame (assignable : bool) (vs : list content) (ops : list oop) : Prop :=
  match ops with
  | [] => True
  | o :: os => otame assignable vs o /\ match oexpect vs o with Some (vs1, _) => oall_tame assignable vs1 os | None => False end
  end.

(* what an owner shows: isActive() and the object *)
Definition shows (f : owner) (v : content) : Prop :=
  match v with None => active f = false | Some x => active f = true /\ oval f = x end.
