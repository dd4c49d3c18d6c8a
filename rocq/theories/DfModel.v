(** * DenseField on the host (include/zensim/container/DenseField.hpp)

    Sizes are unbounded naturals; the accesses of Vector are bounds-checked here ([None] is an access out of bounds);
    a Vector is the list of its elements, new ones have an arbitrary value [junk]. *)
From Coq Require Import Arith List.
Import ListNotations.

Section Model.
Context {T : Type}.
Variable junk : T.

(** Members _field and _shape (229-230). *)
Record dense := Dense { field : list T; shape : list nat }.

(** shape_size (37-41) *)
Definition shape_size (s : list nat) : nat := fold_left (fun sz d => sz * d) s 1.
(** The loop of the constructor and of reshape (45-50, 216-221), from the last dimension to the first:
    base and the part of _shape written so far. *)
Definition bases (s : list nat) : nat * list nat :=
  fold_right (fun d st => let base := fst st * d in (base, base :: snd st)) (1, [1]) s.
(** Constructor (43-53) *)
Definition construct (s : list nat) : dense := Dense (repeat junk (shape_size s)) (snd (bases s)).
(** dims (121), size (122) *)
Definition dims (f : dense) : nat := length (shape f) - 1.
Definition size (f : dense) : nat := length (field f).
(** linearOffset (146-158): the fold over the arguments, ++i before each read of the bases. *)
Fixpoint offset_from (bs : list nat) (i offset : nat) (is : list nat) : option nat :=
  match is with
  | [] => Some offset
  | x :: r => let i := S i in
              match nth_error bs i with Some b => offset_from bs i (offset + x * b) r | None => None end
  end.
Definition linearOffset (f : dense) (is : list nat) : option nat := offset_from (shape f) 0 0 is.
(** operator() read (165-170) and written through (160-164) *)
Definition get (f : dense) (is : list nat) : option T :=
  match linearOffset f is with Some o => nth_error (field f) o | None => None end.
Definition set (f : dense) (is : list nat) (v : T) : option dense :=
  match linearOffset f is with
  | Some o => if o <? length (field f) then Some (Dense (firstn o (field f) ++ v :: skipn (S o) (field f)) (shape f)) else None
  | None => None
  end.
(** reshape (214-227); Vector::resize keeps the elements that fit *)
Definition reshape (f : dense) (s : list nat) : dense :=
  let n := fst (bases s) in
  Dense (firstn n (field f) ++ repeat junk (n - length (field f))) (snd (bases s)).
End Model.
