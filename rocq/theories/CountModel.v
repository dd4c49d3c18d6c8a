(** Parallel counting sort, as used by SparseMatrix (math/matrix/SparseMatrix.hpp 168-352, 394-642), BvttFront::reorder
    (container/Bvtt.hpp 70-105) and SpatialHash::build: one kernel takes a ticket per item from the counter of its segment with
    atomic_add, exclusive_scan turns the counts into segment starts, another kernel stores each item at start + ticket.
    atomic_add operations are indivisible, so an execution of the first kernel is an order of the items; the stores of the second kernel
    happen in any order.  exclusive_scan is its result (proved of the code under C14 and C16).  None: access outside an array. *)
From Verif Require Import Prelude SortModel.

Section C.
Context {E : Type}.
Variable seg : E -> nat.
(** localOffset = atomic_add(&cnts[seg], 1) for the items in the order of their atomic operations *)
Fixpoint tickets (cnts : list nat) (ord : list E) : option (list nat * list (E * nat)) :=
  match ord with
  | [] => Some (cnts, [])
  | x :: r => bind (nth_error cnts (seg x)) (fun c => bind (upd cnts (seg x) (S c)) (fun cnts' =>
              bind (tickets cnts' r) (fun '(cs, ts) => Some (cs, (x, c) :: ts))))
  end.
(** exclusive_scan with plus from 0 *)
Fixpoint escan (acc : nat) (l : list nat) : list nat := match l with [] => [] | c :: r => acc :: escan (acc + c) r end.
(** dst = ptrs[seg] + localOffset *)
Fixpoint targets (ptrs : list nat) (ts : list (E * nat)) : option (list (nat * E)) :=
  match ts with
  | [] => Some []
  | (x, c) :: r => bind (nth_error ptrs (seg x)) (fun p => bind (targets ptrs r) (fun ws => Some ((p + c, x) :: ws)))
  end.
End C.
(** a set of plain stores, in the given order *)
Definition store {F} (o : option (list F)) (w : nat * F) : option (list F) := bind o (fun a => upd a (fst w) (snd w)).
Definition run_stores {F} (a : list F) (ws : list (nat * F)) : option (list F) := fold_left store ws (Some a).
