(** Specification for C102. *)
From Verif Require Import Prelude VsModel.
Local Open Scope nat_scope.

(** a monoid on the values satisfying D: [op] is associative with neutral [e] there, and calling it on values of D combines them *)
Record lawful {T} (m : monoid T) (D : T -> Prop) (op : T -> T -> T) (e : T) : Prop := Lawful {
  lw_ident : m_ident m = e;
  lw_e : D e;
  lw_in : forall x y, D x -> D y -> D (op x y);
  lw_assoc : forall x y z, D x -> D y -> D z -> op x (op y z) = op (op x y) z;
  lw_left : forall x, D x -> op e x = x;
  lw_right : forall x, D x -> op x e = x;
  lw_call : forall l, l <> [] -> Forall D l -> m_call m l = Some (fold_right op e l) }.
(** the part of a sequence that belongs to entry i of each kind of scan: the values before it, up to it, after it, from it on *)
Definition part {T} (cate i : nat) (ns : list T) : list T :=
  match cate with 0 => firstn i ns | 1 => firstn (S i) ns | 2 => skipn (S i) ns | _ => skipn i ns end.
