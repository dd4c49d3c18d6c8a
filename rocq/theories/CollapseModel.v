(** Model of ZpcIterator.hpp: Collapse (lines 504-546).
    The extents tuple [ns] and the iterator tuple [it] are lists of unbounded integers (dimension 0 first). *)
From Verif Require Import Prelude.
Local Open Scope Z_scope.

(** iterator(wrapv<0>, ns) (ZpcIterator.hpp:520-521): all zeros. *)
Definition col_begin (ns : list Z) : list Z := map (fun _ => 0) ns.
(** iterator(wrapv<1>, ns) (ZpcIterator.hpp:522-523): (n0, 0, ..., 0). *)
Definition col_end (ns : list Z) : list Z :=
  match ns with [] => [] | n0 :: r => n0 :: map (fun _ => 0) r end.

(** equal_to (ZpcIterator.hpp:526-528). *)
Fixpoint col_eqb (a b : list Z) : bool :=
  match a, b with
  | [], [] => true
  | x :: a', y :: b' => (x =? y) && col_eqb a' b'
  | _, _ => false
  end.

(** increment_impl<I> (ZpcIterator.hpp:529-536); [None]: index outside the tuple (cannot be instantiated). *)
Fixpoint inc_impl (I : nat) (ns it : list Z) : option (list Z) :=
  match nth_error it I, nth_error ns I with
  | Some x, Some m =>
    let n := x + 1 in
    match I with
    | O => upd it O n
    | S I' =>
      if n >=? m then
        match upd it I 0 with
        | Some it' => inc_impl I' ns it'
        | None => None
        end
      else upd it I n
    end
  | _, _ => None
  end.

(** increment (ZpcIterator.hpp:537). *)
Definition increment (ns it : list Z) : option (list Z) := inc_impl (length ns - 1) ns it.

(** The range-for loop [for (auto t : Collapse(ns...)) visit(t)] with begin/end of lines 542-543:
    the list of tuples visited.  [None]: fuel exhausted. *)
Fixpoint visits (fuel : nat) (ns it : list Z) : option (list (list Z)) :=
  match fuel with
  | O => None
  | S f =>
    if col_eqb it (col_end ns) then Some [] else
    match increment ns it with
    | None => None
    | Some it' => option_map (cons it) (visits f ns it')
    end
  end.
