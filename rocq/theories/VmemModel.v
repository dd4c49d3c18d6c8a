(** Model of arena_virtual_memory_resource<host> and stack_virtual_memory_resource<host>
    (memory/Allocator.cpp:101-155, 158-240; memory/MemoryResource.h:52-53).
    Offsets and sizes are Z without size_t wrap-around (offset + bytes + 2^21 < 2^64 is assumed).
    The operating system is represented by: which bytes of the reservation are accessible, and their contents.
    mprotect / madvise succeed or fail as an input boolean says; a failing call changes nothing. *)
From Verif Require Import Prelude MaskModel.
Local Open Scope Z_scope.

Definition G : Z := 2 ^ 21.                                            (* s_chunk_granularity *)
(** round_down / round_up (math/bit/Bits.h:147-152); the bit masks are taken as division by the power of two *)
Definition round_down (n : Z) : Z := n / G * G.
Definition round_up (n : Z) : Z := (n + G - 1) / G * G.

(** the OS view: byte accessibility and contents *)
Record os := mkos { acc : Z -> bool; val : Z -> Z }.
Definition in_rng (st len b : Z) : bool := (st <=? b) && (b <? st + len).
Definition mprotect (o : os) (st len : Z) (rw : bool) : os := mkos (fun b => if in_rng st len b then rw else acc o b) (val o).
Definition dontneed (o : os) (st len : Z) : os := mkos (acc o) (fun b => if in_rng st len b then 0 else val o b).

(** arena: _reservedSpace, _activeChunkMasks, and the OS state *)
Record arena := mkar { ares : Z; amask : list N; aos : os }.
(** constructor (101-114); mmap(PROT_NONE) makes nothing accessible *)
Definition arena_ctor (space : Z) : arena :=
  let r := round_up space in
  mkar r (repeat 0%N (Z.to_nat ((r / G + 63) / 64))) (mkos (fun _ => false) (fun _ => 0)).

(** the loops [for (; st != ed; ++st)] over chunk indices, st <= ed *)
Fixpoint check_loop (m : list N) (st : nat) (n : nat) : option bool :=
  match n with
  | O => Some true
  | S n' => match isOn m st with None => None | Some false => Some false | Some true => check_loop m (S st) n' end
  end.
Fixpoint set_loop (m : list N) (st : nat) (n : nat) (on : bool) : option (list N) :=
  match n with
  | O => Some m
  | S n' => match set_bit m st on with None => None | Some m' => set_loop m' (S st) n' on end
  end.
Definition chunks (st ed : Z) : nat := Z.to_nat (ed / G - st / G).
Definition end_up (r off : Z) : Z := if off <=? r then round_up off else r.
Definition end_down (r off : Z) : Z := if off <=? r then round_down off else r.

(** do_check_residency (120-129) *)
Definition arena_check (a : arena) (offset bytes : Z) : option bool :=
  let st := round_down offset in
  if ares a <=? st then Some false
  else let ed := end_up (ares a) (offset + bytes) in
       check_loop (amask a) (Z.to_nat (st / G)) (chunks st ed).
(** do_commit (130-142); [ok] is the result of mprotect *)
Definition arena_commit (a : arena) (offset bytes : Z) (ok : bool) : option (arena * bool) :=
  let st := round_down offset in
  if ares a <=? st then Some (a, false)
  else let ed := end_up (ares a) (offset + bytes) in
       if ok then
         match set_loop (amask a) (Z.to_nat (st / G)) (chunks st ed) true with
         | Some m => Some (mkar (ares a) m (mprotect (aos a) st (ed - st) true), true)
         | None => None end
       else Some (a, false).
(** do_evict (144-155); [ok1], [ok2] are the results of madvise and mprotect *)
Definition arena_evict (a : arena) (offset bytes : Z) (ok1 ok2 : bool) : option (arena * bool) :=
  let st := round_up offset in
  let ed := end_down (ares a) (offset + bytes) in
  if ed <=? st then Some (a, false)
  else if negb ok1 then Some (a, false)
  else let a1 := mkar (ares a) (amask a) (dontneed (aos a) st (ed - st)) in
       if negb ok2 then Some (a1, false)
       else match set_loop (amask a1) (Z.to_nat (st / G)) (chunks st ed) false with
            | Some m => Some (mkar (ares a) m (mprotect (aos a1) st (ed - st) false), true)
            | None => None end.

(** stack: _reservedSpace, _allocatedSpace *)
Record svm := mksv { sres : Z; salloc : Z; sos : os }.
(** constructor (158-190) *)
Definition svm_ctor (size : Z) : svm := mksv (round_up size) 0 (mkos (fun _ => false) (fun _ => 0)).
(** do_check_residency (202-207) *)
Definition svm_check (s : svm) (offset bytes : Z) : bool := end_up (sres s) (offset + bytes) <=? salloc s.
(** do_commit (208-221) *)
Definition svm_commit (s : svm) (offset bytes : Z) (ok : bool) : svm * bool :=
  let ed := end_up (sres s) (offset + bytes) in
  if ed <? salloc s then (s, true)
  else if ok then (mksv (sres s) ed (mprotect (sos s) 0 ed true), true) else (s, false).
(** do_evict (223-240) *)
Definition svm_evict (s : svm) (offset bytes : Z) (ok1 ok2 : bool) : svm * bool :=
  let st := round_up offset in
  if salloc s <=? st then (s, true)
  else if negb ok1 then (s, false)
  else let o1 := dontneed (sos s) st (salloc s - st) in
       if negb ok2 then (mksv (sres s) (salloc s) o1, false)
       else (mksv (sres s) st (mprotect o1 st (salloc s - st) false), true).
