(** A finite sequence; None marks an element whose value is unspecified. *)
From Verif Require Import Prelude UptrModel.
From Verif Require VectorModel.
Import VectorModel(vop(..)).

Section S.
Context {A : Type}.
Definition sq := list (option A).
Definition set_nth (l : sq) (i : nat) (x : option A) : sq := firstn i l ++ x :: skipn (S i) l.
Definition sstep (e : nat -> sq) (o : vop A) : nat -> sq :=
  match o with
  | OResize x n | OAlignedResize x n _ => fset e x (firstn n (e x) ++ repeat None (n - length (e x)))
  | OResizeFill x n a => fset e x (firstn n (e x) ++ repeat (Some a) (n - length (e x)))
  | OClear x => fset e x []
  | OReset x a => fset e x (repeat (Some a) (length (e x)))
  | OSet x i a => fset e x (set_nth (e x) i (Some a))
  | OPush x a => fset e x (e x ++ [Some a])
  | OAppend x y => fset e x (e x ++ e y)
  | OCopy x y | OClone x y => fset e x (e y)
  | OMove x y => if x =? y then e else fset (fset e y []) x (e y)
  | OSwap x y => fset (fset e x (e y)) y (e x)
  end.
Definition op_ok (e : nat -> sq) (o : vop A) : Prop :=
  match o with OSet x i _ => i < length (e x) | OAlignedResize _ _ al => 0 < al | _ => True end.
Fixpoint ops_ok (e : nat -> sq) (os : list (vop A)) : Prop :=
  match os with [] => True | o :: r => op_ok e o /\ ops_ok (sstep e o) r end.
Definition srun (e : nat -> sq) (os : list (vop A)) : nat -> sq := fold_left sstep os e.
(** an observed element agrees with the specified one *)
Definition agrees (spec obs : option A) : Prop := match spec with None => True | Some _ => obs = spec end.
End S.
