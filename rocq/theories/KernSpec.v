(* What the interpolation kernels are meant to be: the centred B-splines, the
   regularised delta functions, and affine fields.  Independent of KernModel. *)
From Coq Require Import QArith Qabs List.
Import ListNotations.
Open Scope Q_scope.

(* Centred cardinal B-splines of degree 1, 2, 3 as functions of u. *)
Definition bspline1 (u : Q) : Q :=
  if Qle_bool (Qabs u) 1 then 1 - Qabs u else 0.
Definition bspline2 (u : Q) : Q :=
  if Qle_bool (Qabs u) (1#2) then (3#4) - u * u
  else if Qle_bool (Qabs u) (3#2) then (1#2) * ((3#2) - Qabs u) * ((3#2) - Qabs u) else 0.
Definition bspline3 (u : Q) : Q :=
  if Qle_bool (Qabs u) 1 then (2#3) - u * u + (1#2) * Qabs u * Qabs u * Qabs u
  else if Qle_bool (Qabs u) 2 then (1#6) * (2 - Qabs u) * (2 - Qabs u) * (2 - Qabs u) else 0.

(* What is asked of the square root: it respects equality, is never negative,
   never above the true root, and exact on 1 and 1/4. *)
Record root_like (sq : Q -> Q) : Prop := {
  root_eq : forall a b, a == b -> sq a == sq b;
  root_nonneg : forall a, 0 <= sq a;
  root_below : forall a b, 0 <= b -> a <= b * b -> sq a <= b;
  root_1 : sq 1 == 1;
  root_quarter : sq (1#4) == 1#2 }.

Definition qsum (l : list Q) : Q := fold_right Qplus 0 l.

(* An affine field: c + sum of slope_d * position_d. *)
Fixpoint dot (a x : list Q) : Q :=
  match a, x with a :: a', x :: x' => a * x + dot a' x' | _, _ => 0 end.
Definition affine (c : Q) (slope pos : list Q) : Q := c + dot slope pos.

(* Where the value at integer coordinate z lives: collocated grids store it at z,
   face f of a staggered grid half a cell below z in dimension f. *)
Definition node_position (z : list Z) : list Q := map inject_Z z.
Fixpoint lower_half (f : nat) (p : list Q) : list Q :=
  match p, f with
  | [], _ => []
  | x :: p', O => (x - (1#2)) :: p'
  | x :: p', S f' => x :: lower_half f' p'
  end.
Definition face_position (f : nat) (z : list Z) : list Q := lower_half f (node_position z).

(* Every coordinate of p is within r of X. *)
Definition within (r : Q) (p X : list Q) : Prop := Forall2 (fun a b => Qabs (a - b) <= r) p X.

(* m is the least (greatest) of the values taken by f on a list. *)
Definition least {A} (f : A -> Q) (l : list A) (m : Q) : Prop :=
  (exists a, In a l /\ f a = m) /\ forall a, In a l -> m <= f a.
Definition greatest {A} (f : A -> Q) (l : list A) (m : Q) : Prop :=
  (exists a, In a l /\ f a = m) /\ forall a, In a l -> f a <= m.

(* product over the dimensions of a function of the distance to z *)
Fixpoint tensor (phi : Q -> Q) (X : list Q) (z : list Z) : Q :=
  match X, z with
  | x :: X', c :: z' => phi (x - inject_Z c) * tensor phi X' z'
  | _, _ => 1
  end.
