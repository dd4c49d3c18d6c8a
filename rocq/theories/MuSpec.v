(** Specification for C96. *)
From Verif Require Import Prelude ItModel.
Open Scope Z_scope.

(** z is a value of the type t *)
Definition fits (t : ity) (z : Z) : Prop := lo t <= z <= hi t.
(** the greatest common divisor of magnitude g: a common divisor every common divisor divides *)
Definition is_gcd (u v g : Z) : Prop := (g | u) /\ (g | v) /\ forall d, (d | u) -> (d | v) -> (d | g).
Definition is_lcm (u v m : Z) : Prop := (u | m) /\ (v | m) /\ forall d, (u | d) -> (v | d) -> (m | d).
(** all values of a are values of b *)
Definition included (a b : ity) : Prop := forall z, fits a z -> fits b z.
