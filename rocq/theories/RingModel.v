(** Model of container/RingBuffer.hpp. *)
From Verif Require Import Prelude.
Local Open Scope Z_scope.

Section Ring.
  Context {T : Type}.
  (** Template parameter [Size] (RingBuffer.hpp:6). *)
  Variable Size : Z.

  (** Data members _buf, _head, _tail, _size (RingBuffer.hpp:57-58).  [int] is unbounded here. *)
  Record ring := mkRing { r_buf : list T; r_head : Z; r_tail : Z; r_size : Z }.

  (** Constructor (RingBuffer.hpp:7).  The buffer contents are unspecified: any list. *)
  Definition ring_init (b : list T) : ring := mkRing b 1 0 0.

  (** incTail (RingBuffer.hpp:42-45). *)
  Definition incTail (r : ring) : ring :=
    let t := r_tail r + 1 in let s := r_size r + 1 in
    mkRing (r_buf r) (r_head r) (if t =? Size then 0 else t) s.

  (** decTail (RingBuffer.hpp:46-50). *)
  Definition decTail (r : ring) : ring :=
    if r_size r =? 0 then r else
    let t := r_tail r - 1 in let s := r_size r - 1 in
    mkRing (r_buf r) (r_head r) (if t <? 0 then Size - 1 else t) s.

  (** incHead (RingBuffer.hpp:51-55). *)
  Definition incHead (r : ring) : ring :=
    if r_size r =? 0 then r else
    let h := r_head r + 1 in let s := r_size r - 1 in
    mkRing (r_buf r) (if h =? Size then 0 else h) (r_tail r) s.

  (** Array read at a C++ [int] index: [None] is an out-of-range access. *)
  Definition rd (b : list T) (i : Z) : option T :=
    if i <? 0 then None else nth_error b (Z.to_nat i).
  Definition wr (b : list T) (i : Z) (x : T) : option (list T) :=
    if i <? 0 then None else upd b (Z.to_nat i) x.

  (** push_back() (RingBuffer.hpp:10-13). *)
  Definition push_raw (r : ring) : ring :=
    let r1 := incTail r in if Size <? r_size r1 then incHead r1 else r1.

  (** push_back(const T&), push_back(T&&) (RingBuffer.hpp:14-23); the store is to back() (27). *)
  Definition push (r : ring) (x : T) : option ring :=
    let r1 := incTail r in
    let r2 := if Size <? r_size r1 then incHead r1 else r1 in
    match wr (r_buf r2) (r_tail r2) x with
    | Some b => Some (mkRing b (r_head r2) (r_tail r2) (r_size r2))
    | None => None
    end.

  (** pop (RingBuffer.hpp:24). *)
  Definition pop (r : ring) : ring := decTail r.

  (** back() (RingBuffer.hpp:27-28). *)
  Definition back (r : ring) : option T := rd (r_buf r) (r_tail r).

  (** operator[] (RingBuffer.hpp:29-38); [%=] is C++ remainder. *)
  Definition get (r : ring) (i : Z) : option T := rd (r_buf r) (Z.rem (i + r_head r) Size).

  (** size() (RingBuffer.hpp:39). *)
  Definition ring_size (r : ring) : Z := r_size r.

  (** scaffolding: the modifying calls of RingBuffer.hpp *)
  Inductive rop := OPush (x : T) | OPushRaw | OPop.

  (** scaffolding: one such call *)
  Definition ring_step (r : ring) (o : rop) : option ring :=
    match o with OPush x => push r x | OPushRaw => Some (push_raw r) | OPop => Some (pop r) end.

  (** scaffolding: a sequence of calls *)
  Fixpoint ring_run (r : ring) (os : list rop) : option ring :=
    match os with
    | [] => Some r
    | o :: os' => match ring_step r o with Some r' => ring_run r' os' | None => None end
    end.
End Ring.
Arguments ring T : clear implicits.
Arguments rop T : clear implicits.
