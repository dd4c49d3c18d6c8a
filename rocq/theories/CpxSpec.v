(* Complex numbers and polynomial roots, independently of the code. *)
From mathcomp Require Import all_ssreflect all_algebra.
From Verif Require Import CpxModel.
Set Implicit Arguments.
Unset Strict Implicit.
Unset Printing Implicit Defensive.
Import GRing.Theory Num.Theory Order.Theory.
Local Open Scope ring_scope.

(* w = x + y, w = x - y, w = x y with i i = -1 *)
Definition is_sum (T : ringType) (x y w : complex T) : Prop :=
  re w = re x + re y /\ im w = im x + im y.
Definition is_diff (T : ringType) (x y w : complex T) : Prop := is_sum w y x.
Definition is_prod (T : ringType) (x y w : complex T) : Prop :=
  re w = re x * re y - im x * im y /\ im w = re x * im y + im x * re y.
(* the real number r as a complex number *)
Definition real_c (T : ringType) (r : T) : complex T := Cpx r 0.

(* t is the smallest positive solution of a t^2 + b t + c = 0 *)
Definition quad (T : ringType) (a b c t : T) : T := a * t ^+ 2 + b * t + c.
Definition smallest_positive (T : numDomainType) (p : T -> T) (t : T) : Prop :=
  0 < t /\ p t = 0 /\ forall s, 0 < s -> p s = 0 -> t <= s.
Definition no_positive (T : numDomainType) (p : T -> T) : Prop := forall s, 0 < s -> p s <> 0.

Definition cubic (T : ringType) (a b c d t : T) : T := a * t ^+ 3 + b * t ^+ 2 + c * t + d.
