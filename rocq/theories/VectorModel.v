(** Model of container/Vector.hpp (conventional, non-virtual allocator, host memory).
    A Vector is its allocation [cells] (capacity() = number of cells; a cell that was never written is None) and _size.
    Deallocation and ownership of the base pointer are not modelled: each Vector owns its own cells.
    memset(ch) of an element is a parameter value (the element whose bytes all equal ch). *)
From Verif Require Import Prelude UptrModel.

Section V.
Context {A : Type}.
(** the storage at _base and _size (Vector.hpp 419-420) *)
Record vec := mkvec { cells : list (option A); vsize : nat }.
(** _capacity (Vector.hpp 135, 420) *)
Definition capacity (v : vec) : nat := length (cells v).

(** constructor Vector(allocator, count) (57-61), Vector() (64-65) *)
Definition v_ctor (n : nat) : vec := mkvec (repeat None n) n.
(** geometric_size_growth (407-416) *)
Definition growth (newSize cap : nat) : nat := let g := cap + cap / 2 in if g <? newSize then newSize else g.
(** Resource::copy of the first n elements of src to dst at position d; None when either range is exceeded *)
Fixpoint copy_n (src dst : list (option A)) (s d n : nat) : option (list (option A)) :=
  match n with
  | O => Some dst
  | S n' => match nth_error src s with
            | None => None
            | Some x => match upd dst d x with None => None | Some dst' => copy_n src dst' (S s) (S d) n' end
            end
  end.
(** Resource::memset of n elements from position d *)
Fixpoint fill_n (dst : list (option A)) (d n : nat) (x : A) : option (list (option A)) :=
  match n with
  | O => Some dst
  | S n' => match upd dst d (Some x) with None => None | Some dst' => fill_n dst' (S d) n' x end
  end.
(** reallocation: tmp{allocator, newCap}, copy usedBytes, swap (245-250) *)
Definition realloc (v : vec) (newCap newSize : nat) : option vec :=
  match copy_n (cells v) (repeat None newCap) 0 0 (vsize v) with Some c => Some (mkvec c newSize) | None => None end.
(** resize(newSize) (228-256), with resizeBuffer (375-402) the same on host *)
Definition resize (v : vec) (n : nat) : option vec :=
  if n <? vsize v then Some (mkvec (cells v) n)
  else if vsize v <? n then
    if capacity v <? n then realloc v (growth n (capacity v)) n
    else Some (mkvec (cells v) n)
  else Some v.
(** alignedResize (257-288) *)
Definition alignedResize (v : vec) (n al : nat) : option vec :=
  if n <? vsize v then Some (mkvec (cells v) n)
  else if vsize v <? n then
    if capacity v <? n then
      (if al =? 0 then None else
      let c := growth n (capacity v) in
      let r := c mod al in
      realloc v (c + (if r =? 0 then 0 else al - r)) n)
    else Some (mkvec (cells v) n)
  else Some v.
(** resize(newSize, ch) (289-326) *)
Definition resize_fill (v : vec) (n : nat) (x : A) : option vec :=
  if n <? vsize v then Some (mkvec (cells v) n)
  else if vsize v <? n then
    if capacity v <? n then
      match copy_n (cells v) (repeat None (growth n (capacity v))) 0 0 (vsize v) with
      | None => None
      | Some c => match fill_n c (vsize v) (n - vsize v) x with Some c' => Some (mkvec c' n) | None => None end
      end
    else match fill_n (cells v) (vsize v) (n - vsize v) x with Some c' => Some (mkvec c' n) | None => None end
  else Some v.
(** operator[] write, setVal (82-86): the C++ has no bound check; outside the allocation is undefined *)
Definition store (v : vec) (i : nat) (x : option A) : option vec :=
  match upd (cells v) i x with Some c => Some (mkvec c (vsize v)) | None => None end.
(** operator[] read, getVal (72-77) *)
Definition load (v : vec) (i : nat) : option (option A) := nth_error (cells v) i.
(** reset(ch) (225-227) *)
Definition reset (v : vec) (x : A) : option vec :=
  match fill_n (cells v) 0 (vsize v) x with Some c => Some (mkvec c (vsize v)) | None => None end.
(** push_back(val), val not inside the vector (328-337) *)
Definition push_back (v : vec) (x : option A) : option vec :=
  match resize v (S (vsize v)) with None => None | Some v' => store v' (vsize v) x end.
(** push_back(v[i]), argument a reference into the vector itself: read after resize, dangling if storage was replaced *)
Definition push_back_self (v : vec) (i : nat) : option vec :=
  match resize v (S (vsize v)) with
  | None => None
  | Some v' => if capacity v <? S (vsize v) then None
               else match load v' i with None => None | Some x => store v' (vsize v) x end
  end.
(** append(other) (339-368); [self] tells that other is *this, whose storage is then the resized one *)
Definition append (v other : vec) (self : bool) : option vec :=
  let oldSize := vsize v in let count := vsize other in
  if count =? 0 then Some v
  else
    match (if capacity v - oldSize <? count then resize v (oldSize + count) else Some (mkvec (cells v) (oldSize + count))) with
    | None => None
    | Some v' =>
      match copy_n (if self then cells v' else cells other) (cells v') 0 oldSize count with
      | Some c => Some (mkvec c (vsize v')) | None => None end
    end.
(** copy constructor (164-181) *)
Definition v_copy (o : vec) : option vec :=
  match copy_n (cells o) (repeat None (capacity o)) 0 0 (vsize o) with Some c => Some (mkvec c (vsize o)) | None => None end.
(** clone (188-194) *)
Definition v_clone (o : vec) : option vec :=
  match copy_n (cells o) (repeat None (vsize o)) 0 0 (vsize o) with Some c => Some (mkvec c (vsize o)) | None => None end.

(** reorder (629-649): the policy runs the bodies (i, map[i]) in some order [sched] of the positions *)
Definition reorder_body (scatter : bool) (vs : list (option A)) (map : list nat) (dst : option (list (option A))) (i : nat) : option (list (option A)) :=
  match dst, nth_error map i with
  | Some d, Some j =>
    if scatter then match nth_error vs i with Some x => upd d j x | None => None end
    else match nth_error vs j with Some x => upd d i x | None => None end
  | _, _ => None
  end.
Inductive reorder_result := Threw | Done (v : option vec).
Definition reorder (scatter : bool) (v : vec) (map : list nat) (sched : list nat) : reorder_result :=
  if negb (length map =? vsize v) then Threw
  else let n := capacity v in
    Done (match fold_left (reorder_body scatter (cells v) map) sched (Some (repeat None n)) with
          | Some c => Some (mkvec c n) | None => None end).

(** several vectors, indexed by variable: assignments between them.
    copy-assignment (182-187), move-assignment (210-215, leaves the source default constructed, 202-208) *)
Definition env := nat -> vec.
Inductive vop :=
| OResize (x n : nat) | OAlignedResize (x n al : nat) | OResizeFill (x n : nat) (a : A) | OClear (x : nat) | OReset (x : nat) (a : A)
| OSet (x i : nat) (a : A) | OPush (x : nat) (a : A) | OAppend (x y : nat)
| OCopy (x y : nat) | OClone (x y : nat) | OMove (x y : nat) | OSwap (x y : nat).
Definition set_env (e : env) (x : nat) (o : option vec) : option env := match o with Some v => Some (fset e x v) | None => None end.
Definition vstep (e : env) (o : vop) : option env :=
  match o with
  | OResize x n => set_env e x (resize (e x) n)
  | OAlignedResize x n al => set_env e x (alignedResize (e x) n al)
  | OResizeFill x n a => set_env e x (resize_fill (e x) n a)
  | OClear x => set_env e x (resize (e x) 0)
  | OReset x a => set_env e x (reset (e x) a)
  | OSet x i a => set_env e x (store (e x) i (Some a))
  | OPush x a => set_env e x (push_back (e x) (Some a))
  | OAppend x y => set_env e x (append (e x) (e y) (x =? y))
  | OCopy x y => if x =? y then Some e else set_env e x (v_copy (e y))
  | OClone x y => set_env e x (v_clone (e y))
  | OMove x y => if x =? y then Some e else Some (fset (fset e y (v_ctor 0)) x (e y))
  | OSwap x y => Some (fset (fset e x (e y)) y (e x))
  end.
Fixpoint vrun (e : env) (os : list vop) : option env :=
  match os with [] => Some e | o :: r => match vstep e o with Some e' => vrun e' r | None => None end end.
End V.
Arguments vec : clear implicits.
Arguments env : clear implicits.
Arguments vop : clear implicits.
Arguments reorder_result : clear implicits.
