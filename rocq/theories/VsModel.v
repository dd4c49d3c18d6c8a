(** value_seq of include/zensim/ZpcFunctional.hpp (444-548): reduce, shuffle (with ZpcMeta.hpp 553-559) and scan. A sequence is the list of its values;
    None: does not compile. Simplifications: the values have one type, conversions between the types of values and identity are not modelled. *)
From Verif Require Import Prelude ItModel SrModel.
Local Open Scope nat_scope.

Section Values.
Context {T : Type}.
(** monoid<BinaryOp> (166-285): its identity, and its operator() on a pack *)
Record monoid := Monoid { m_ident : T; m_call : list T -> option T }.
Variable m : monoid.
Variable ns : list T.
(** 446 *)
Definition indices : list nat := seq 0 (length ns).
(** the expansion of a pattern in Is and Ns *)
Fixpoint mapi {B} (f : nat -> T -> B) (i : nat) (l : list T) : list B := match l with [] => [] | x :: r => f i x :: mapi f (S i) r end.
(** 483-485 *)
Definition reduce : option T := m_call m ns.
(** 519-521: an index out of range does not compile *)
Fixpoint shuffle (is : list nat) : option (list T) :=
  match is with [] => Some [] | i :: is => match nth_error ns i, shuffle is with Some x, Some r => Some (x :: r) | _, _ => None end end.
(** the conditions of 534, 536, 538, 540 *)
Definition chosen (cate i j : nat) : bool :=
  match cate with 0 => Nat.ltb j i | 1 => Nat.leb j i | 2 => Nat.ltb i j | _ => Nat.leb i j end.
(** 532-541: the other values are replaced by the identity *)
Definition get_sum (cate i : nat) : option T := m_call m (mapi (fun j x => if chosen cate i j then x else m_ident m) 0 ns).
(** 542 *)
Fixpoint get_sums (cate : nat) (is : list nat) : option (list T) :=
  match is with [] => Some [] | i :: is => match get_sum cate i, get_sums cate is with Some x, Some r => Some (x :: r) | _, _ => None end end.
(** 544-547 *)
Definition scan (cate : nat) : option (list T) := get_sums cate indices.
End Values.
Arguments monoid : clear implicits.

(** the monoids of integer types (166-182, 268-285; SrModel); plus and the extrema do not compile without arguments *)
Definition plus_monoid (t : ity) : monoid Z := Monoid 0%Z (fun l => match l with [] => None | a :: r => sum_pack t a r end).
Definition multiplies_monoid (t : ity) : monoid Z := Monoid 1%Z (fun l => match l with [] => Some 1%Z | a :: r => prod_pack t a r end).
Definition max_monoid (t : ity) : monoid Z := Monoid (numeric_lowest t) (fun l => match l with [] => None | _ => Some (max_pack t l) end).
Definition min_monoid (t : ity) : monoid Z := Monoid (numeric_max t) (fun l => match l with [] => None | _ => Some (min_pack t l) end).
