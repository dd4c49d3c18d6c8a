(** C08 (stack_allocator) and C52 (handle_resource). *)
From Verif Require Import Prelude AllocModel AllocSpec AllocProofs.
Local Open Scope Z_scope.

(** After any history of allocations (some of which may fail) and LIFO frees, the live blocks are aligned, inside the
    buffer and pairwise disjoint. *)
Theorem C08_live_blocks_ok : forall base total align cs, 0 < align -> 0 <= total -> Forall nonneg_call cs ->
  let live := snd (run_client (stk_ctor base total align) cs) in
  Forall (blk_ok base (base + total) align) live /\ all_disjoint live.
Proof. exact stack_blocks_ok. Qed.
Print Assumptions C08_live_blocks_ok.

(** Freeing the most recent block succeeds, and the next request of at most its size gets its address. *)
Theorem C08_free_then_reuse : forall base total align cs s p n rest bytes,
  0 < align -> 0 <= total -> Forall pos_call cs ->
  run_client (stk_ctor base total align) cs = (s, (p, n) :: rest) -> 0 <= bytes <= n ->
  exists s', stk_deallocate s p = (s', Ret p) /\ exists s'', stk_allocate s' bytes = (s'', Ret p).
Proof. exact stack_free_reuse. Qed.
Print Assumptions C08_free_then_reuse.

(** While no allocation has failed, every request that fits after the most recent live block is served there. *)
Theorem C08_fitting_request_served_partial : forall base total align cs bytes s live, 0 < align -> 0 <= total -> Forall nonneg_call cs ->
  all_succeed (stk_ctor base total align, []) cs -> run_client (stk_ctor base total align) cs = (s, live) ->
  align_up (live_end base live) align + bytes <= base + total ->
  exists s', stk_allocate s bytes = (s', Ret (align_up (live_end base live) align)).
Proof. exact stack_fit. Qed.
Print Assumptions C08_fitting_request_served_partial.

(** After a failed allocate even an empty allocator refuses requests that fit: _head was moved past _tail. *)
Theorem C08_failure_poisons_refuted :
  let s := fst (run_client (stk_ctor 64 16 8) [Alloc 17]) in
  snd (run_client (stk_ctor 64 16 8) [Alloc 17]) = [] /\ snd (stk_allocate s 8) = BadAlloc /\
  snd (stk_allocate (stk_ctor 64 16 8) 8) = Ret 64.
Proof. repeat split. Qed.
Print Assumptions C08_failure_poisons_refuted.
(** A zero-sized block cannot be given back. *)
Theorem C08_zero_size_free_refuted :
  let s := fst (run_client (stk_ctor 64 16 8) [Alloc 0]) in
  snd (run_client (stk_ctor 64 16 8) [Alloc 0]) = [(64, 0)] /\ snd (stk_deallocate s 64) = BadAlloc.
Proof. repeat split. Qed.
Print Assumptions C08_zero_size_free_refuted.

Example C08_case : snd (run_client (stk_ctor 60 100 16) [Alloc 5; Alloc 20; FreeTop; Alloc 200; Alloc 1; FreeTop]) = []
  /\ snd (run_client (stk_ctor 60 100 16) [Alloc 5; Alloc 20; FreeTop; Alloc 7]) = [(80, 7); (64, 5)].
Proof. split; reflexivity. Qed.

(** ---- handle_resource ---- *)
(** Every allocation lies inside the buffer held after the call, at an offset not below the end of everything handed out before. *)
Theorem C52_offsets_in_buffer_partial : forall up h bytes al h' p grown, 0 < al -> 0 <= bytes ->
  (forall a, hhandle h = Some a -> a <= hhead h) -> 0 < hbuf h ->
  h_allocate up h bytes al = (h', p, grown) ->
  exists a, hhandle h' = Some a /\ a <= p /\ p + bytes <= a + hbuf h' /\ hhead h' = p + bytes /\
    (forall a0, hhandle h = Some a0 -> hhead h - a0 <= p - a).
Proof. exact h_offsets. Qed.
Print Assumptions C52_offsets_in_buffer_partial.
(** As long as the buffer is not replaced the pointer is aligned and above every earlier block. *)
Theorem C52_in_place_partial : forall up h bytes al h' p, 0 < al -> 0 <= bytes -> (forall a, hhandle h = Some a -> a <= hhead h) ->
  h_allocate up h bytes al = (h', p, false) ->
  exists a, hhandle h' = Some a /\ (al | p) /\ a <= p /\ p + bytes < a + hbuf h' /\ hhead h' = p + bytes /\ hbuf h' = hbuf h /\
   (forall a0, hhandle h = Some a0 -> a = a0 /\ hhead h <= p).
Proof. exact h_inplace. Qed.
Print Assumptions C52_in_place_partial.

(** an upstream honouring every requested alignment *)
Definition up_w : upstream := fun k _ al => if Nat.eqb k 0 then 8 else 1024.
(** On growth the result can violate the requested alignment, and the earlier block is outside the new buffer. *)
Theorem C52_growth_refuted :
  let '(h1, p1, g1) := h_allocate up_w (h_ctor 16) 4 8 in
  let '(h2, p2, g2) := h_allocate up_w h1 8 16 in
  p1 = 8 /\ g1 = false /\ g2 = true /\ (8 | up_w 0%nat 16 8) /\ (16 | up_w 1%nat 32 16) /\ ~ (16 | p2) /\
  hhandle h2 = Some 1024 /\ hbuf h2 = 32.
Proof.
  cbv -[Z.divide not]. split; [reflexivity|]. split; [reflexivity|]. split; [reflexivity|].
  split; [exists 1; reflexivity|]. split; [exists 64; reflexivity|]. split; [|split; reflexivity].
  intros [q E]. lia.
Qed.
Print Assumptions C52_growth_refuted.
