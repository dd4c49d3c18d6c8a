(** The matrix-vector product over the stored entries. *)
From Verif Require Import Prelude SpmModel SpmSpec.

Section S.
Context {V X T : Type}.
(** entry (position k, column j) of the row i times component j of the vector, for every stored entry of the row *)
Definition products (mul : V -> X -> T) (dv : V) (dx : X) (m : @csr V) (x : list X) (i : nat) : list T :=
  map (fun c => mul (nth (snd c) (vals m) dv) (nth (snd (fst c)) x dx)) (filter (fun c => fst (fst c) =? i) (cells m)).
(** their sum *)
Definition product (add : T -> T -> T) (ident : T) (mul : V -> X -> T) (dv : V) (dx : X) (m : @csr V) (x : list X) (i : nat) : T :=
  fold_right add ident (products mul dv dx m x i).
End S.
