(** Specification of unique ownership, per object, on the trace of observable events. *)
From Verif Require Import Prelude UptrModel.

Inductive status := Client | Owned (d : nat) | Dead | Violation.

(** How one event changes the status of object [o]; every illegal event is a violation:
    deleting twice, deleting what the client owns, deleting with another deleter, ... *)
Definition ev_status (o : nat) (st : status) (e : ev) : status :=
  match e with
  | EHand o' d => if o' =? o then match st with Client => Owned d | _ => Violation end else st
  | ERel o' => if o' =? o then match st with Owned _ => Client | _ => Violation end else st
  | EDel o' d => if o' =? o then match st with Owned d' => if d =? d' then Dead else Violation | _ => Violation end else st
  end.
Definition status_of (o : nat) (tr : list ev) : status := fold_left (ev_status o) tr Client.

(** The client only hands over objects that are its own. *)
Definition client_ok (s : ust) (op : uop) : Prop :=
  match op with
  | UNew _ (Some o) _ | UReset _ (Some o) => status_of o (u_tr s) = Client
  | _ => True
  end.

Inductive LegalRun : list uop -> ust -> Prop :=
| LRnil : LegalRun [] u_init
| LRsnoc ops s op s' : LegalRun ops s -> client_ok s op -> u_step s op = Some s' ->
    LegalRun (ops ++ [op]) s'.
