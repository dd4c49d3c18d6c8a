(** C05: RingBuffer is the window of the last Size pushes. *)
From Verif Require Import Prelude RingModel RingSpec RingProofs.
Local Open Scope Z_scope.

(** Every history runs without an out-of-range access and the observers agree with the bounded deque. *)
Theorem C05_ring_refines_bounded_deque :
  forall (T : Type) (Size : Z), 1 <= Size ->
  forall (b : list T) (os : list (rop T)), Z.of_nat (length b) = Size ->
  exists r l, ring_run Size (ring_init b) os = Some r /\
    dq_run (Z.to_nat Size) os [] l /\
    ring_size r = Z.of_nat (length l) /\
    (forall i, 0 <= i < ring_size r -> get Size r i = nth_error l (Z.to_nat i)) /\
    (l <> [] -> back r = nth_error l (length l - 1)).
Proof. exact @ring_refines. Qed.
Print Assumptions C05_ring_refines_bounded_deque.

Example C05_case : exists r,
  ring_run 3 (ring_init [0;0;0]) [OPush 1; OPush 2; OPush 3; OPush 4; OPop; OPush 5; OPush 6] = Some r /\
  ring_size r = 3 /\ map (get 3 r) [0;1;2] = [Some 3; Some 5; Some 6] /\ back r = Some 6.
Proof. eexists. split; [vm_compute; reflexivity|]. vm_compute. auto. Qed.

(** For Size >= 2 the counters stay below Size, so the [int] members cannot overflow. *)
Theorem C05_ring_counters_bounded :
  forall (T : Type) (Size : Z) (b : list T) (os : list (rop T)) (r : ring T),
  2 <= Size -> ring_run Size (ring_init b) os = Some r ->
  0 <= r_head r < Size /\ 0 <= r_tail r < Size /\ 0 <= r_size r <= Size.
Proof. exact @ring_no_overflow. Qed.
Print Assumptions C05_ring_counters_bounded.

(** Finding: with Size = 1 the head counter is never wrapped and grows with the number of pushes,
    so on a 32-bit [int] it eventually overflows. *)
Theorem C05_ring_size1_head_bounded_refuted :
  forall B : Z, exists os (r : ring unit),
  ring_run 1 (ring_init [tt]) os = Some r /\ B < r_head r.
Proof. exact ring_size1_unbounded. Qed.
Print Assumptions C05_ring_size1_head_bounded_refuted.
