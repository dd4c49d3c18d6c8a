(** Specification of bit_mask: a set of indices below Size given by its membership function, and programs over masks. *)
From Verif Require Import Prelude.

Definition card (S : nat -> bool) (n : nat) : nat := length (filter S (seq 0 n)).
(** least member in [a, n), or n *)
Definition least_from (S : nat -> bool) (a n : nat) : nat :=
  match find S (seq a (n - a)) with Some i => i | None => n end.

(** programs building masks through the API *)
Inductive mprog :=
| PEmpty
| PBool (b : bool)
| POn (p : mprog) (n : nat)
| POff (p : mprog) (n : nat)
| PSet (p : mprog) (n : nat) (b : bool)
| PToggle (p : mprog) (n : nat)
| PAll (p : mprog) (b : bool)
| PToggleAll (p : mprog)
| PAnd (p q : mprog) | POr (p q : mprog) | PSub (p q : mprog) | PXor (p q : mprog).

(** the set a program denotes *)
Fixpoint denotes (p : mprog) : nat -> bool :=
  match p with
  | PEmpty => fun _ => false
  | PBool b => fun _ => b
  | POn p n => fun i => (i =? n) || denotes p i
  | POff p n => fun i => negb (i =? n) && denotes p i
  | PSet p n b => fun i => if i =? n then b else denotes p i
  | PToggle p n => fun i => if i =? n then negb (denotes p i) else denotes p i
  | PAll p b => fun _ => b
  | PToggleAll p => fun i => negb (denotes p i)
  | PAnd p q => fun i => denotes p i && denotes q i
  | POr p q => fun i => denotes p i || denotes q i
  | PSub p q => fun i => denotes p i && negb (denotes q i)
  | PXor p q => fun i => xorb (denotes p i) (denotes q i)
  end.
(** all single-bit indices are below Size *)
Fixpoint in_range (size : nat) (p : mprog) : Prop :=
  match p with
  | PEmpty | PBool _ => True
  | POn p n | POff p n | PSet p n _ | PToggle p n => n < size /\ in_range size p
  | PAll p _ | PToggleAll p => in_range size p
  | PAnd p q | POr p q | PSub p q | PXor p q => in_range size p /\ in_range size q
  end.
(** no operation that turns a whole mask on *)
Fixpoint no_whole (p : mprog) : Prop :=
  match p with
  | PEmpty => True
  | PBool b => b = false
  | POn p _ | POff p _ | PSet p _ _ | PToggle p _ => no_whole p
  | PAll p b => b = false /\ no_whole p
  | PToggleAll _ => False
  | PAnd p q | POr p q | PSub p q | PXor p q => no_whole p /\ no_whole q
  end.
