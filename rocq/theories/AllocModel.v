(** Model of stack_allocator and handle_resource (memory/Allocator.cpp:250-321, memory/Allocator.h:270-).  Addresses are Z. *)
From Verif Require Import Prelude.
Local Open Scope Z_scope.

(** stack_allocator fields (constructor 296-300): _data, _head, _tail, _align *)
Record stk := mkstk { sdata : Z; shead : Z; stail : Z; salign : Z }.
Definition stk_ctor (base total align : Z) : stk := mkstk base base (base + total) align.

(** result of a call: a value, or a std::bad_alloc *)
Inductive outcome := Ret (p : Z) | BadAlloc.

(** the alignment expression of 308 and 268 *)
Definition align_up (head align : Z) : Z := head + align - 1 - (head + align - 1) mod align.
(** allocate (306-314): note that _head is moved before the check *)
Definition stk_allocate (s : stk) (bytes : Z) : stk * outcome :=
  let ret := align_up (shead s) (salign s) in
  let s' := mkstk (sdata s) (ret + bytes) (stail s) (salign s) in
  if shead s' >? stail s' then (s', BadAlloc) else (s', Ret ret).
(** deallocate (315-321) *)
Definition stk_deallocate (s : stk) (p : Z) : stk * outcome :=
  if p >=? shead s then (s, BadAlloc)
  else if p <? sdata s then (s, BadAlloc)
  else (mkstk (sdata s) p (stail s) (salign s), Ret p).

(** handle_resource (250-290).  The upstream resource is a function giving the address of its k-th allocation
    for a size and alignment. *)
Record hres := mkh { hbuf : Z; halign : Z; hhandle : option Z; hhead : Z; hcount : nat }.
Definition h_ctor (initSize : Z) : hres := mkh initSize 0 None 0 0.
Definition upstream := nat -> Z -> Z -> Z.
(** do_allocate (261-283): new state, pointer, and whether the buffer was given back and replaced *)
Definition h_allocate (up : upstream) (h : hres) (bytes alignment : Z) : hres * Z * bool :=
  let h1 := match hhandle h with
            | None => let a := up (hcount h) (hbuf h) alignment in mkh (hbuf h) alignment (Some a) a (S (hcount h))
            | Some _ => h end in
  let handle := match hhandle h1 with Some a => a | None => 0 end in
  let ret := align_up (hhead h1) alignment in
  let head := ret + bytes in
  if head <? handle + hbuf h1 then (mkh (hbuf h1) (halign h1) (Some handle) head (hcount h1), ret, false)
  else
    let offset := ret - handle in
    let buf := (head - handle) * 2 in
    let a := up (hcount h1) buf alignment in
    (mkh buf alignment (Some a) (a + offset + bytes) (S (hcount h1)), a + offset, true).
