(** * What is expected of owning pointers with value copies *)
From Coq Require Import Arith List.
From Verif Require Import CpModel.
Import ListNotations.

Section Spec.
Context {V : Type}.
(** A user sees of a variable: that it does not exist, is empty, or the value it points to. *)
Inductive view := Absent | Nothing | Holds (v : V) | Dangling.
Definition look (s : @state V) (i : nat) : view :=
  match env s i with
  | None => Absent
  | Some None => Nothing
  | Some (Some a) => match nth_error (heap s) a with Some (Some v) => Holds v | _ => Dangling end
  end.
(** The object number [a] has been allocated and not deleted. *)
Definition live (s : @state V) (a : nat) : Prop := exists v, nth_error (heap s) a = Some (Some v).
Definition owns (s : @state V) (i a : nat) : Prop := env s i = Some (Some a).
(** The reference semantics: variables simply hold values, nothing is shared; [None] is an illegal use. *)
Definition upd (w : nat -> view) i x : nat -> view := fun k => if Nat.eq_dec k i then x else w k.
Definition present (x : view) := match x with Nothing | Holds _ => true | _ => false end.
Definition absent (x : view) := match x with Absent => true | _ => false end.
Definition ideal (w : nat -> view) (o : @op V) : option (nat -> view) :=
  match o with
  | New i v => if absent (w i) then Some (upd w i (Holds v)) else None
  | Empty i => if absent (w i) then Some (upd w i Nothing) else None
  | CopyCtor i j => match w j with Holds v => if absent (w i) then Some (upd w i (Holds v)) else None | _ => None end
  | CopyAssign i j => match w j with Holds v => if present (w i) then Some (upd w i (Holds v)) else None | _ => None end
  | MoveCtor i j => if (absent (w i) && present (w j))%bool then Some (upd (upd w j Nothing) i (w j)) else None
  | MoveAssign i j => if (present (w i) && present (w j))%bool then Some (upd (upd w j Nothing) i (w j)) else None
  | Write i v => match w i with Holds _ => Some (upd w i (Holds v)) | _ => None end
  | Reset i => if present (w i) then Some (upd w i Nothing) else None
  | ResetTo i v => if present (w i) then Some (upd w i (Holds v)) else None
  | Swap i j => if (present (w i) && present (w j))%bool then Some (upd (upd w i (w j)) j (w i)) else None
  | Destroy i => if present (w i) then Some (upd w i Absent) else None
  end.
End Spec.
