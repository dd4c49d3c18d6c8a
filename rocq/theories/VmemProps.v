(** C09: virtual memory resources. [acc o x] is the OS's view: byte x of the reservation is readable and writable. *)
From Verif Require Import Prelude VmemModel VmemSpec VmemProofs.
Local Open Scope Z_scope.

(** The arena's residency answer is exact for ranges inside the reservation, after any history (also with failing system calls). *)
Theorem C09_arena_residency_exact : forall space cs o b,
  0 <= space -> Forall vcall_ok cs -> 0 <= o -> 0 < b -> o + b <= round_up space ->
  exists a r, arena_run space cs = Some a /\ arena_check a o b = Some r /\ (r = true <-> forall x, o <= x < o + b -> acc (aos a) x = true).
Proof. exact arena_residency_exact. Qed.
Print Assumptions C09_arena_residency_exact.

(** A committed range answers "resident" until an evict overlaps it. *)
Theorem C09_arena_commit_stays_resident : forall space cs1 o b cs2 a a1,
  0 <= space -> Forall vcall_ok cs1 -> Forall vcall_ok cs2 -> 0 <= o -> 0 < b -> o < round_up space ->
  Forall (evict_avoids o (o + b)) cs2 -> arena_run space cs1 = Some a -> arena_commit a o b true = Some (a1, true) ->
  exists a2, fold_left arena_step cs2 (Some a1) = Some a2 /\ arena_check a2 o b = Some true.
Proof. exact arena_commit_then_check. Qed.
Print Assumptions C09_arena_commit_stays_resident.

(** An arena evict changes accessibility and contents of no byte outside the range it is given; on success the whole chunks
    inside the range become inaccessible. *)
Theorem C09_arena_evict_local : forall space cs o b ok1 ok2,
  0 <= space -> Forall vcall_ok cs -> 0 <= o -> 0 <= b ->
  exists a a' r, arena_run space cs = Some a /\ arena_evict a o b ok1 ok2 = Some (a', r) /\
   (forall x, ~ (o <= x < o + b) -> acc (aos a') x = acc (aos a) x /\ val (aos a') x = val (aos a) x) /\
   (r = true -> forall x, round_up o <= x < end_down (round_up space) (o + b) -> acc (aos a') x = false).
Proof. exact arena_evict_local. Qed.
Print Assumptions C09_arena_evict_local.

(** The stack resource: exact answers, evict keeps everything below its offset. *)
Theorem C09_stack_residency_exact : forall size cs o b, 0 <= size -> Forall vcall_ok cs -> 0 <= o -> 0 < b -> o + b <= round_up size ->
  let s := svm_run size cs in svm_check s o b = true <-> forall x, o <= x < o + b -> acc (sos s) x = true.
Proof. exact svm_residency. Qed.
Print Assumptions C09_stack_residency_exact.
Theorem C09_stack_commit_evict : forall size cs o b ok1 ok2, 0 <= size -> Forall vcall_ok cs -> 0 <= o -> 0 <= b ->
  let s := svm_run size cs in
  (let '(s', r) := svm_commit s o b ok1 in
    (forall x, val (sos s') x = val (sos s) x) /\ (forall x, acc (sos s) x = true -> acc (sos s') x = true) /\
    (r = true -> forall x, o <= x < o + b -> x < round_up size -> acc (sos s') x = true)) /\
  (let '(s', r) := svm_evict s o b ok1 ok2 in
    (forall x, x < o -> acc (sos s') x = acc (sos s) x /\ val (sos s') x = val (sos s) x) /\
    (r = true -> forall x, round_up o <= x -> acc (sos s') x = false)).
Proof. exact svm_ops. Qed.
Print Assumptions C09_stack_commit_evict.

(** Outside the reservation the answers are wrong: commit and check clamp the range and report success. *)
Theorem C09_beyond_reserve_refuted : exists a1 a2,
  arena_run 1 [] = Some a1 /\ arena_commit a1 0 (2 * 2 ^ 21) true = Some (a2, true) /\ arena_check a2 0 (2 * 2 ^ 21) = Some true /\
  acc (aos a2) (2 ^ 21) = false.
Proof. do 2 eexists. split; [reflexivity|]. split; [reflexivity|]. split; reflexivity. Qed.
Print Assumptions C09_beyond_reserve_refuted.

Example C09_case : exists a, arena_run (5 * 2 ^ 21) [VCommit (2 ^ 21 + 5) (2 ^ 21) true; VEvict (2 ^ 21) (2 ^ 21) true true; VCommit 0 1 false] = Some a /\
  arena_check a (2 * 2 ^ 21) 5 = Some true /\ arena_check a (2 ^ 21) 5 = Some false.
Proof. eexists. split; [reflexivity|]. split; reflexivity. Qed.
