(** Model of math/matrix/SparseMatrix.hpp (compressed rows or columns).
    Modelled: build from triplets (394-465), build of the topology with and without Mirror (468-530), fastBuild (532-577),
    transposeFrom (579-642), the view's operator() (818-834), locate (880-902), binary-search locate and exist (904-963).
    Simplifications: indices are nat; values are an abstract type with the addition of atomic_add; the temporary bht is used through its
    proved behaviour (C27, C28: a successful build numbers the distinct keys 0, 1, ... in some order, exactly one inserter of each key
    gets the number, query returns it); exclusive_scan through its proved behaviour (C14, C16).  The exceptions for mismatched sizes and
    the check of the number of entries are not modelled.  None: access outside an array. *)
From Verif Require Import Prelude SortModel CountModel.

Section M.
Context {V : Type}.
(** RowMajor is the template parameter; outerSize / innerSize (87-98) *)
Record csr := { rm : bool; nrows : nat; ncols : nat; ptrs : list nat; inds : list nat; vals : list V }.
Definition outer (m : csr) : nat := if rm m then nrows m else ncols m.
Definition inner (m : csr) : nat := if rm m then ncols m else nrows m.

(** ** lookup *)
(** for (; offset != ed; ++offset) if (_inds[offset] == target) ...: position found, or ed; reading outside _inds is None *)
Fixpoint scan_row (fuel : nat) (m : csr) (off ed : nat) (target : nat) : option nat :=
  if off =? ed then Some ed else
  match fuel with
  | 0 => None
  | S f => bind (nth_error (inds m) off) (fun x => if x =? target then Some off else scan_row f m (S off) ed target)
  end.
Definition bounds (m : csr) (i j : nat) : option (nat * nat * nat) :=
  let o := if rm m then i else j in
  bind (nth_error (ptrs m) o) (fun st => bind (nth_error (ptrs m) (S o)) (fun ed => Some (st, ed, if rm m then j else i))).
(** operator()(i, j): the value found, or value_type{} (zero) *)
Definition get (zero : V) (m : csr) (i j : nat) : option V :=
  bind (bounds m i j) (fun '(st, ed, target) => bind (scan_row (length (inds m)) m st ed target) (fun off =>
    if off =? ed then Some zero else nth_error (vals m) off)).
(** locate(i, j): Some (Some offset), or Some None for deduce_numeric_max *)
Definition locate (m : csr) (i j : nat) : option (option nat) :=
  bind (bounds m i j) (fun '(st, ed, target) => bind (scan_row (length (inds m)) m st ed target) (fun off =>
    Some (if off =? ed then None else Some off))).
(** locate(i, j, true_type): binary search with size_type arithmetic modulo M = 2^bits *)
Fixpoint bsearch (fuel : nat) (M : Z) (m : csr) (st ed : Z) (target : nat) : option (option Z * Z * Z) :=
  if (ed <? st)%Z then Some (None, st, ed) else
  match fuel with
  | 0 => None
  | S f => let mid := ((st + (ed - st) / 2) mod M)%Z in
           bind (nth_error (inds m) (Z.to_nat mid)) (fun x =>
             if target =? x then Some (Some mid, st, ed)
             else if target <? x then bsearch f M m st ((mid - 1) mod M)%Z target
             else bsearch f M m ((mid + 1) mod M)%Z ed target)
  end.
Definition bounds_b (M : Z) (m : csr) (i j : nat) : option (Z * Z * nat) :=
  bind (bounds m i j) (fun '(st, ed, target) => Some (Z.of_nat st, ((Z.of_nat ed - 1) mod M)%Z, target)).
Definition locate_b (M : Z) (m : csr) (i j : nat) : option (option Z) :=
  bind (bounds_b M m i j) (fun '(st, ed, target) => bind (bsearch (S (length (inds m))) M m st ed target) (fun '(r, _, _) => Some r)).
(** exist(i, j, true_type): the same loop, returning ed >= st *)
Definition exist_b (M : Z) (m : csr) (i j : nat) : option bool :=
  bind (bounds_b M m i j) (fun '(st, ed, target) => bind (bsearch (S (length (inds m))) M m st ed target) (fun '(_, st', ed') => Some (st' <=? ed')%Z)).
End M.
