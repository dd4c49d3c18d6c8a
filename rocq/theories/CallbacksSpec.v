(** What should be registered, read off the history of calls and returned ids alone. *)
From Verif Require Import Prelude CallbacksModel.
Local Open Scope Z_scope.

Section S.
  Context {F : Type}.
  (** effect of one call on what is registered under id [k] *)
  Definition reg_ev (k : Z) (r : option F) (e : cev F) : option F :=
    match e with
    | VInsert i f | VAssign i f => if i =? k then Some f else r
    | VErase i => if i =? k then None else r
    | VClear => None
    end.
  Definition registered (h : list (cev F)) (k : Z) : option F := fold_left (reg_ev k) h None.

  (** ids returned by insert, in order *)
  Definition ids_of (h : list (cev F)) : list Z :=
    flat_map (fun e => match e with VInsert i _ => [i] | _ => [] end) h.

  (** assign is only used on ids that an earlier insert returned *)
  Definition assigns_known_ids (h : list (cev F)) : Prop :=
    forall h1 i f h2, h = h1 ++ VAssign i f :: h2 -> In i (ids_of h1).
End S.
