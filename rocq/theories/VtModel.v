(** * Dispatch over several variants (include/zensim/types/Polymorphism.h 41-109)

    The alternatives of the variants are numbered; [callable is] stands for the compile-time
    CheckCallable of the visitor on the alternatives [is] (Polymorphism.h 47-57), an arbitrary
    predicate.  A variant that holds nothing has an index that is no alternative's number. *)

From Coq Require Import List Arith Bool.
Import ListNotations.

(** The comparison of varIndices with I, Js... (Polymorphism.h 72). *)
Fixpoint same (a b : list nat) : bool :=
  match a, b with
  | [], [] => true
  | x :: a', y :: b' => Nat.eqb x y && same a' b'
  | _, _ => false
  end.

(** VariantTaskExecutor::traverse<No>(tagMatch, args, varIndices, index_sequence<Ns...>, ..,
    index_sequence<I, Js...>) (Polymorphism.h 59-90): the value of tagMatch at the end, and the
    calls made of the visitor.  The loop of the code is the recursion on I (86-89), nested in the
    recursion on No (80-85). *)
Fixpoint traverse (callable : list nat -> bool) (held ns : list nat) (no : nat) : nat -> list nat -> bool * list (list nat) :=
  fix loop (I : nat) (Js : list nat) : bool * list (list nat) :=
    let '(tag, calls) :=
      match no with
      | 0 => if callable (I :: Js) && same held (I :: Js) then (true, [I :: Js]) else (false, [])
      | S no' => traverse callable held ns no' (nth no' ns 0 - 1) (I :: Js)
      end in
    if tag then (true, calls)
    else match I with
         | 0 => (false, calls)
         | S I' => let '(tag', calls') := loop I' Js in (tag', calls ++ calls')
         end.

(** VariantTaskExecutor::operator() (Polymorphism.h 96-108): ns the numbers of alternatives of the
    arguments' variant types, held their index(). *)
Definition execute (callable : list nat -> bool) (ns held : list nat) : list (list nat) :=
  let narg := length ns in
  snd (traverse callable held ns (narg - 1) (nth (narg - 1) ns 0 - 1) []).
