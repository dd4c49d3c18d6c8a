(** Specification for C98: semirings over the integers with one more element. *)
From Verif Require Import Prelude ItModel.
Open Scope Z_scope.

Definition fits (t : ity) (z : Z) : Prop := lo t <= z <= hi t.
(** the laws of a commutative semiring on the elements satisfying D *)
Record laws {A} (D : A -> Prop) (add mul : A -> A -> A) (zero one : A) : Prop := Laws {
  l_add_in : forall x y, D x -> D y -> D (add x y);
  l_mul_in : forall x y, D x -> D y -> D (mul x y);
  l_zero_in : D zero;
  l_one_in : D one;
  l_add_assoc : forall x y z, D x -> D y -> D z -> add x (add y z) = add (add x y) z;
  l_add_comm : forall x y, D x -> D y -> add x y = add y x;
  l_add_zero : forall x, D x -> add zero x = x;
  l_mul_assoc : forall x y z, D x -> D y -> D z -> mul x (mul y z) = mul (mul x y) z;
  l_mul_comm : forall x y, D x -> D y -> mul x y = mul y x;
  l_mul_one : forall x, D x -> mul one x = x;
  l_mul_zero : forall x, D x -> mul zero x = zero;
  l_distr : forall x y z, D x -> D y -> D z -> mul x (add y z) = add (mul x y) (mul x z) }.
(** integers with an infinite element None, which [pick] (minimum or maximum) ignores and [op] (sum or product) keeps *)
Definition xadd (pick : Z -> Z -> Z) (x y : option Z) : option Z := match x, y with Some a, Some b => Some (pick a b) | None, _ => y | _, None => x end.
Definition xmul (op : Z -> Z -> Z) (x y : option Z) : option Z := match x, y with Some a, Some b => Some (op a b) | _, _ => None end.
Definition anything (x : option Z) : Prop := True.
Definition nonnegative (x : option Z) : Prop := match x with Some a => 0 <= a | None => True end.
(** how a type represents them: the infinite element by [inf] *)
Definition code (inf : Z) (x : option Z) : Z := match x with Some a => a | None => inf end.
Definition codable (t : ity) (inf : Z) (x : option Z) : Prop := match x with Some a => fits t a /\ a <> inf | None => True end.
(** the smallest and the largest element of a list *)
Definition is_min (l : list Z) (m : Z) : Prop := In m l /\ forall x, In x l -> m <= x.
Definition is_max (l : list Z) (m : Z) : Prop := In m l /\ forall x, In x l -> x <= m.
Definition total (l : list Z) : Z := fold_right Z.add 0 l.
Definition product (l : list Z) : Z := fold_right Z.mul 1 l.
