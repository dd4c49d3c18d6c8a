(** Model of the merge and quick sorts of execution/ExecutionPolicy.hpp (sequential policy, 290-447) and
    omp/execution/ExecutionPolicy.hpp (OpenMP policy, 480-700 and 720-872; the two files have the same local code).
    The parallel arrays keys/vals are always read and written at the same index, so they are one array of (key, value) pairs; merge_sort
    without values is the case of a unit value.  [comp] is compOp on the keys of two pairs.  Indices are nat (DiffT is signed, no index goes
    below zero; r - 1 < l in quick_sort is handled with an exclusive bound).  None: access outside an array, or loop fuel exhausted. *)
From Verif Require Import Prelude.

(** scaffolding: sequencing of accesses that may be outside the range (ExecutionPolicy.hpp 290-447) *)
Definition bind {A B} (o : option A) (f : A -> option B) : option B := match o with Some x => f x | None => None end.

Section S.
Context {A : Type}.
Variable comp : A -> A -> bool.

(** for (k = i; k != ll; --k) if (comp(a[k], a[k-1])) swap else break   (347-355), with k = ll + d *)
Fixpoint ins_loop (d ll : nat) (a : list A) : option (list A) :=
  match d with
  | O => Some a
  | S d' =>
    match nth_error a (ll + d), nth_error a (ll + d') with
    | Some x, Some y =>
      if comp x y then bind (upd a (ll + d) y) (fun a1 => bind (upd a1 (ll + d') x) (ins_loop d' ll)) else Some a
    | _, _ => None
    end
  end.
(** for (i = ll + 1; i != rr; ++i) (346-356), n = rr - ll *)
Definition ins_block (ll n : nat) (a : list A) : option (list A) :=
  fold_left (fun oa d => bind oa (ins_loop d ll)) (seq 1 (n - 1)) (Some a).
(** blocks of 16 (342-358) *)
Fixpoint ins_phase (fuel ll r : nat) (a : list A) : option (list A) :=
  if ll <? r then
    match fuel with
    | O => None
    | S f => let rr := Nat.min (ll + 16) r in bind (ins_block ll (rr - ll) a) (ins_phase f rr r)
    end
  else Some a.

(** while (left < mid) dst[k++] = src[left++] (384-387), n elements *)
Fixpoint copy_seg (src dst : list A) (s d n : nat) : option (list A) :=
  match n with
  | O => Some dst
  | S n' => match nth_error src s with Some x => bind (upd dst d x) (fun dst' => copy_seg src dst' (S s) (S d) n') | None => None end
  end.
(** merge of [left, mid) and [right, rr) of src into dst at k (371-391 and 397-417) *)
Fixpoint merge_loop (fuel : nat) (src dst : list A) (left mid right rr k : nat) : option (list A) :=
  if (left <? mid) && (right <? rr) then
    match fuel with
    | O => None
    | S f =>
      match nth_error src left, nth_error src right with
      | Some a, Some b =>
        if negb (comp b a) then bind (upd dst k a) (fun d => merge_loop f src d (S left) mid right rr (S k))
        else bind (upd dst k b) (fun d => merge_loop f src d left mid (S right) rr (S k))
      | _, _ => None
      end
    end
  else bind (copy_seg src dst left k (mid - left)) (fun d => copy_seg src d right (k + (mid - left)) (rr - right)).
(** for (ll = l; ll < r; ll += stride) (367-392 / 393-418) *)
Fixpoint pass (fuel : nat) (src dst : list A) (ll r h : nat) : option (list A) :=
  if ll <? r then
    match fuel with
    | O => None
    | S f =>
      let mid := Nat.min (ll + h) r in let rr := Nat.min (ll + 2 * h) r in
      bind (merge_loop (rr - ll) src dst ll mid mid rr ll) (fun d => pass f src d (ll + 2 * h) r h)
    end
  else Some dst.
(** for (halfStride = 16; halfStride < r - l; ) (359-421): ping-pong between the arrays *)
Fixpoint passes (fuel : nat) (a o : list A) (flipped : bool) (h l r : nat) : option (list A * list A * bool) :=
  if h <? r - l then
    match fuel with
    | O => None
    | S f =>
      if flipped then bind (pass (r - l) o a l r h) (fun a' => passes f a' o false (2 * h) l r)
      else bind (pass (r - l) a o l r h) (fun o' => passes f a o' true (2 * h) l r)
    end
  else Some (a, o, flipped).
(** the sort of [l, r) by one thread (330-421) *)
Definition local_sort (l r : nat) (a o : list A) : option (list A * list A * bool) :=
  bind (ins_phase (r - l) l r a) (fun a1 => passes (r - l) a1 o false 16 l r).
(** sequential merge_sort_pair (311-456); o is the uninitialised temporary storage *)
Definition merge_sort (a o : list A) : option (list A) :=
  bind (local_sort 0 (length a) a o) (fun st =>
    let '(a', o', flipped) := st in if flipped then copy_seg o' a' 0 0 (length a) else Some a').

(** OpenMP.  [nths] threads; nwork = ceil(dist / nths).  In each phase between barriers the threads run in the order given by
    [ord phase]; a thread is not interrupted within a phase (the regions the threads touch in a phase are disjoint). *)
Variable nths : nat.
Definition nwork (dist : nat) : nat := (dist + nths - 1) / nths.
Record omp_state := mkst { oa : list A; oo : list A; oflip : nat -> bool }.
Definition setf (f : nat -> bool) (t : nat) (b : bool) : nat -> bool := fun t' => if t' =? t then b else f t'.
(** a thread's local part (omp 538-624), l = nwork * tid, r = min(l + nwork, dist) *)
Definition thread_local (dist : nat) (s : option omp_state) (tid : nat) : option omp_state :=
  bind s (fun s =>
    let l := nwork dist * tid in let r := Nat.min (l + nwork dist) dist in
    bind (local_sort l r (oa s) (oo s)) (fun st => let '(a, o, fl) := st in Some (mkst a o (setf (oflip s) tid fl)))).
(** one level of the merge tree for one thread (omp 630-684) *)
Definition thread_level (dist h : nat) (s : option omp_state) (tid : nat) : option omp_state :=
  bind s (fun s =>
    if tid mod (2 * h) =? 0 then
      let l := nwork dist * tid in
      let mid := Nat.min (nwork dist * (tid + h)) dist in let rr := Nat.min (nwork dist * (tid + 2 * h)) dist in
      if oflip s tid then bind (merge_loop (rr - l) (oo s) (oa s) l mid mid rr l) (fun a => Some (mkst a (oo s) (setf (oflip s) tid false)))
      else bind (merge_loop (rr - l) (oa s) (oo s) l mid mid rr l) (fun o => Some (mkst (oa s) o (setf (oflip s) tid true)))
    else Some s).
(** for (halfStride = 1; halfStride < nths; halfStride *= 2) (omp 626-685) *)
Fixpoint levels (fuel : nat) (dist h lv : nat) (ord : nat -> list nat) (s : option omp_state) : option omp_state :=
  if h <? nths then
    match fuel with
    | O => None
    | S f => levels f dist (2 * h) (S lv) ord (fold_left (thread_level dist h) (ord lv) s)
    end
  else s.
(** if (switched) copy own region back (omp 686-693) *)
Definition thread_copy (dist : nat) (sw : bool) (o : list A) (a : option (list A)) (tid : nat) : option (list A) :=
  bind a (fun a => let l := nwork dist * tid in let r := Nat.min (l + nwork dist) dist in
    if sw then copy_seg o a l l (r - l) else Some a).
(** the parallel region (omp 526-694): ord 0 orders the local sorts, ord (1 + level) the tree levels, ordc the final copies *)
Definition omp_region (ord : nat -> list nat) (ordc : list nat) (a o : list A) : option (list A) :=
  let dist := length a in
  bind (levels nths dist 1 1 ord (fold_left (thread_local dist) (ord 0) (Some (mkst a o (fun _ => false))))) (fun s =>
    fold_left (thread_copy dist (oflip s 0) (oo s)) ordc (Some (oa s))).
End S.

(** merge_sort_pair_impl/merge_sort_impl, OpenMP: a team of [dop] threads when dop * 256 < dist, otherwise one thread *)
Definition omp_merge_sort {A} (comp : A -> A -> bool) (dop : nat) (ord : nat -> list nat) (ordc : list nat) (a o : list A) : option (list A) :=
  if dop * 256 <? length a then omp_region comp dop ord ordc a o else omp_region comp 1 (fun _ => [0]) [0] a o.

(** quick_sort_impl (290-310): Lomuto partition with operator< on the keys ([lt]); compOp is passed along but never used.
    [n] = r - l + 1 is the length of the range starting at l. *)
Section Q.
Context {A : Type}.
Variable lt : A -> A -> bool.
Definition swap (a : list A) (i j : nat) : option (list A) :=
  match nth_error a i, nth_error a j with
  | Some x, Some y => bind (upd a i y) (fun a' => upd a' j x)
  | _, _ => None
  end.
(** for (j = l; j != r; ++j) if (keys[j] < pivot) swap(pi++, j) (296-302); pivot is a reference to keys[r] *)
Fixpoint part_loop (m j r pi : nat) (a : list A) : option (list A * nat) :=
  match m with
  | O => Some (a, pi)
  | S m' =>
    match nth_error a j, nth_error a r with
    | Some x, Some p => if lt x p then bind (swap a pi j) (fun a' => part_loop m' (S j) r (S pi) a')
                        else part_loop m' (S j) r pi a
    | _, _ => None
    end
  end.
Fixpoint quick_sort (fuel l n : nat) (a : list A) : option (list A) :=
  if n <=? 1 then Some a
  else match fuel with
  | O => None
  | S f =>
    let r := l + n - 1 in
    bind (part_loop (r - l) l r l a) (fun ap => let '(a1, pi) := ap in
    bind (swap a1 pi r) (fun a2 =>
    bind (quick_sort f l (pi - l) a2) (fun a3 => quick_sort f (S pi) (r - pi) a3)))
  end.
End Q.
(** sequential sort_pair (440-447): compOp is not used *)
Definition sort_pair {A} (lt : A -> A -> bool) (compOp : A -> A -> bool) (a : list A) : option (list A) := quick_sort lt (length a) 0 (length a) a.
