(** Sequential meaning of the atomic operations. *)
From Verif Require Import Prelude AtomicModel.

Section A.
Context {W : Type}.
Variable vlt : W -> W -> bool.
Variable plus : W -> W -> W.
(** the value left by an indivisible call *)
Definition effect (o : @op W) (x : W) : W :=
  match o with Add v => plus x v | Max v => if vlt x v then v else x | Min v => if vlt v x then v else x | Exch v => v end.
(** executing the calls one after the other from x, each returning the value it found, ends with y *)
Inductive one_after_the_other : W -> list (nat * @op W * W) -> W -> Prop :=
| OA_nil x : one_after_the_other x [] x
| OA_cons x i o l y : one_after_the_other (effect o x) l y -> one_after_the_other x ((i, o, x) :: l) y.
(** the calls thread i made, in order *)
Definition calls_of (i : nat) (l : list (nat * @op W * W)) : list (@op W) := map (fun e => snd (fst e)) (filter (fun e => fst (fst e) =? i) l).
End A.
