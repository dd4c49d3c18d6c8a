(* Value semantics of a function object, and legality of the events on the
   callables it owns.  Independent of how FnModel stores them. *)
From Verif Require Import Prelude FnModel.

(* Objects alive after a trace; None when an object is constructed twice,
   destroyed twice, used when not alive, or relocated although it refers to itself. *)
Fixpoint alive_after (tr : list event) (alive : list nat) : option (list nat) :=
  match tr with
  | [] => Some alive
  | Ctor i :: tr' => if in_dec Nat.eq_dec i alive then None else alive_after tr' (i :: alive)
  | Dtor i :: tr' => if in_dec Nat.eq_dec i alive then alive_after tr' (remove Nat.eq_dec i alive) else None
  | Read i :: tr' => if in_dec Nat.eq_dec i alive then alive_after tr' alive else None
  | Memcpy i :: tr' => None
  end.
Definition legal (tr : list event) : Prop := alive_after tr [] <> None.
Definition all_destroyed (tr : list event) : Prop := alive_after tr [] = Some [].

(* A slot's value: empty or a callable. *)
Notation value := (option callable) (only parsing).

Definition result (v : value) : outcome := match v with Some c => Value (tag c) | None => Threw end.

(* What a user expects of each operation on the values of the slots. *)
Definition expect (vs : list value) (o : op) : option (list value * outcome) :=
  match o with
  | SetCallable d c throws =>
      match nth_error vs d with
      | Some v => if throws then Some (vs, Threw) else Some (setn vs d (Some c), Done)
      | None => None end
  | CopyAssign d s | LvalueAssign d s =>
      match nth_error vs d, nth_error vs s with
      | Some v, Some w =>
          if Nat.eqb d s then Some (vs, Done) else
          match w with
          | Some c => if copyable c then Some (setn vs d w, Done) else Some (vs, Threw)
          | None => Some (setn vs d None, Done) end
      | _, _ => None end
  | MoveAssign d s =>
      match nth_error vs d, nth_error vs s with
      | Some v, Some w => if Nat.eqb d s then Some (vs, Done) else Some (setn (setn vs d w) s None, Done)
      | _, _ => None end
  | Call d => match nth_error vs d with Some v => Some (vs, result v) | None => None end
  | Reset d => match nth_error vs d with Some v => Some (setn vs d None, Done) | None => None end
  end.

Fixpoint expect_all (vs : list value) (ops : list op) : option (list value * list outcome) :=
  match ops with
  | [] => Some (vs, [])
  | o :: os =>
      match expect vs o with
      | None => None
      | Some (vs1, out) =>
          match expect_all vs1 os with
          | None => None
          | Some (vs2, outs) => Some (vs2, out :: outs)
          end
      end
  end.

(* The uses for which the claim holds: copy and move assignment only onto an empty
   function (or itself), no throwing constructor over a full one, plain
   lvalue assignment only from another, full, copyable one, no
   self-referencing callable moved. *)
Definition tame (vs : list value) (o : op) : Prop :=
  match o with
  | SetCallable d c throws => throws = true -> nth_error vs d = Some None
  | CopyAssign d s => d = s \/ nth_error vs d = Some None
  | LvalueAssign d s => d <> s /\ exists c, nth_error vs s = Some (Some c) /\ copyable c = true
  | MoveAssign d s => d = s \/ (nth_error vs d = Some None /\
                                 forall c, nth_error vs s = Some (Some c) -> selfref c = false)
  | Call _ | Reset _ => True
  end.
Fixpoint all_tame (vs : list value) (ops : list op) : Prop :=
  match ops with
  | [] => True
  | o :: os => tame vs o /\ match expect vs o with Some (vs1, _) => all_tame vs1 os | None => False end
  end.
