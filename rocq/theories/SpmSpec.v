(** What a compressed matrix stores. *)
From Verif Require Import Prelude SpmModel.

Section S.
Context {V : Type}.
Notation csr := (@csr V).
(** row and column of an entry with outer index o and inner index i *)
Definition coord (m : csr) (o i : nat) : nat * nat := if rm m then (o, i) else (i, o).
(** the stored entries: ((row, column), position) *)
Definition cells (m : csr) : list (nat * nat * nat) :=
  flat_map (fun o => map (fun k => (coord m o (nth k (inds m) 0), k)) (seq (nth o (ptrs m) 0) (nth (S o) (ptrs m) 0 - nth o (ptrs m) 0))) (seq 0 (outer m)).
(** position k holds the entry (i, j) *)
Definition stored (m : csr) (i j k : nat) : Prop := In (i, j, k) (cells m).
(** the stored entries with their values *)
Definition entries (m : csr) : list (nat * nat * option V) := map (fun '(c, k) => (c, nth_error (vals m) k)) (cells m).
(** well-formed topology: the pointers ascend from 0 to the number of entries, the inner indices are in range *)
Definition wf_topo (m : csr) : Prop :=
  length (ptrs m) = S (outer m) /\ nth 0 (ptrs m) 0 = 0 /\ (forall o, o < outer m -> nth o (ptrs m) 0 <= nth (S o) (ptrs m) 0) /\
  nth (outer m) (ptrs m) 0 = length (inds m) /\ (forall k, k < length (inds m) -> nth k (inds m) 0 < inner m).
Definition wf (m : csr) : Prop := wf_topo m /\ length (vals m) = length (inds m).
(** no coordinate is stored twice *)
Definition unique (m : csr) : Prop := forall i j k k', stored m i j k -> stored m i j k' -> k = k'.
(** inner indices ascend in every segment (localOrdering) *)
Definition ordered (m : csr) : Prop :=
  forall o k k', o < outer m -> nth o (ptrs m) 0 <= k -> k <= k' -> k' < nth (S o) (ptrs m) 0 -> nth k (inds m) 0 <= nth k' (inds m) 0.
(** the sum of the values of the triplets at (i, j) *)
Definition sum_at (add : V -> V -> V) (zero : V) (trip : list (nat * nat * V)) (i j : nat) : V :=
  fold_right add zero (map snd (filter (fun t => (fst (fst t) =? i) && (snd (fst t) =? j)) trip)).
End S.
(** the coordinates a topology should hold: the given ones, and their mirror images if mirrored *)
Definition wanted (mirror : bool) (cs : list (nat * nat)) (i j : nat) : Prop := In (i, j) cs \/ (mirror = true /\ In (j, i) cs).
Definition fits (nr nc : nat) (c : nat * nat) : Prop := fst c < nr /\ snd c < nc.
