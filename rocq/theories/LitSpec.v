(** Specification for C101: decimal numerals with separators. *)
From Verif Require Import Prelude.
Open Scope Z_scope.

Definition quote : Z := 39.
Definition is_digit (c : Z) : Prop := 48 <= c <= 57.
Definition well_formed (c : list Z) : Prop := forall x, In x c -> x = quote \/ is_digit x.
(** the digits without the separators *)
Definition digits (c : list Z) : list Z := map (fun x => x - 48) (filter (fun x => negb (x =? quote)) c).
(** the value: the first digit counts the highest power of ten *)
Fixpoint decimal (d : list Z) : Z := match d with [] => 0 | x :: r => x * 10 ^ Z.of_nat (length r) + decimal r end.
(** the value a numeral with a leading zero has in C++ *)
Fixpoint octal (d : list Z) : Z := match d with [] => 0 | x :: r => x * 8 ^ Z.of_nat (length r) + octal r end.
