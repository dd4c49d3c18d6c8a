(** C14-C17: scans and reductions. *)
From Verif Require Import Prelude ScanModel ScanSpec ScanProofs.

(** C14. Any operator; the output range may be the input range or lie before it, or not overlap it. Nothing outside
    the output range changes. *)
Theorem C14_seq_inclusive_scan : forall (A : Type) (op : A -> A -> A) fi fo n (m : nat -> A),
  (fo <= fi \/ fi + n <= fo) ->
  (forall i, i < n -> seq_inclusive_scan op fi fo n m (fo + i) = incl_at op (contents m fi n) i (m fi)) /\
  (forall a, ~ (fo <= a < fo + n) -> seq_inclusive_scan op fi fo n m a = m a).
Proof. intros A op. exact (seq_incl_ok op). Qed.
Print Assumptions C14_seq_inclusive_scan.

Example C14_case_inclusive : map (seq_inclusive_scan (fun x y => x ++ y) 0 0 4 (fun k => [k])) (seq 0 5)
  = [[0]; [0;1]; [0;1;2]; [0;1;2;3]; [4]].
Proof. vm_compute. reflexivity. Qed.

(** The exclusive scan needs the output not to overwrite unread input: [fo < fi], or [fo] past the last element read.
    Missing from the full claim: in-place use (next theorem). *)
Theorem C14_seq_exclusive_scan_partial : forall (A : Type) (op : A -> A -> A) fi fo n init (m : nat -> A),
  (fo < fi \/ fi + (n - 1) <= fo) ->
  (forall i, i < n -> seq_exclusive_scan op fi fo n init m (fo + i) = excl_at op init (contents m fi n) i) /\
  (forall a, ~ (fo <= a < fo + n) -> seq_exclusive_scan op fi fo n init m a = m a).
Proof. intros A op. exact (seq_excl_ok op). Qed.
Print Assumptions C14_seq_exclusive_scan_partial.

Example C14_case_exclusive : map (seq_exclusive_scan (fun x y => x ++ y) 0 4 4 [9] (fun k => [k])) (seq 4 4)
  = [[9]; [9;0]; [9;0;1]; [9;0;1;2]].
Proof. vm_compute. reflexivity. Qed.

(** Finding: in place (d_first = first) the exclusive scan destroys its input: [1;2;3] with + and 0 gives [0;0;0]
    instead of [0;1;3]. *)
Theorem C14_seq_exclusive_scan_inplace_refuted :
  let m := fun k => S k in
  map (seq_exclusive_scan Nat.add 0 0 3 0 m) (seq 0 3) = [0; 0; 0] /\
  map (excl_at Nat.add 0 (contents m 0 3)) (seq 0 3) = [0; 1; 3].
Proof. split; vm_compute; reflexivity. Qed.
Print Assumptions C14_seq_exclusive_scan_inplace_refuted.

Theorem C14_seq_reduce : forall (A : Type) (op : A -> A -> A) fi fo n init (m : nat -> A),
  seq_reduce op fi fo n init m fo = fold_left op (contents m fi n) init /\
  (forall a, a <> fo -> seq_reduce op fi fo n init m a = m a).
Proof. intros A op. exact (seq_reduce_ok op). Qed.
Print Assumptions C14_seq_reduce.

Example C14_case_reduce : seq_reduce (fun x y => x ++ y) 0 1 4 [9] (fun k => [k]) 1 = [9;0;1;2;3].
Proof. vm_compute. reflexivity. Qed.

(** C15. Every thread count, every interleaving of the threads between barriers, every initial content of the
    scratch array; in place or disjoint.  The operator must also be commutative (see the refutation). *)
Theorem C15_omp_inclusive_scan_partial : forall (A : Type) (op : A -> A -> A) zero nths sched loc0 fi fo n (m : nat -> A),
  (forall x y z, op x (op y z) = op (op x y) z) -> (forall x y, op x y = op y x) ->
  1 <= nths -> fair nths sched -> (fo = fi \/ fo + n <= fi \/ fi + n <= fo) ->
  let r := omp_inclusive_scan op zero nths sched loc0 fi fo n m in
  (forall i, i < n -> r (fo + i) = incl_at op (contents m fi n) i (m fi)) /\
  (forall a, ~ (fo <= a < fo + n) -> r a = m a).
Proof. intros A op. exact (omp_incl_ok op). Qed.
Print Assumptions C15_omp_inclusive_scan_partial.

Example C15_case : map (omp_inclusive_scan Nat.add 0 4 (fun _ => [2;0;3;1]) (fun _ => 77) 0 0 10 (fun k => S k)) (seq 0 11)
  = [1;3;6;10;15;21;28;36;45;55;11] /\ fair 4 (fun _ => [2;0;3;1]).
Proof.
  split; [vm_compute; reflexivity|]. intro ph. cbn [seq].
  apply NoDup_Permutation; [repeat constructor; cbn; lia|repeat constructor; cbn; lia|]. intro x; cbn; lia.
Qed.

(** Finding: for an associative but non-commutative operator the result is wrong as soon as there are two threads:
    the prefix of the earlier chunks is combined on the right. *)
Theorem C15_omp_inclusive_scan_noncommutative_refuted :
  let m := fun k => [S k] in
  fair 2 (fun _ => [0;1]) /\
  omp_inclusive_scan (fun x y => x ++ y) [] 2 (fun _ => [0;1]) (fun _ => []) 0 0 3 m 2 = [3;1;2] /\
  incl_at (fun x y => x ++ y) (contents m 0 3) 2 [] = [1;2;3].
Proof. split; [intro; apply Permutation_refl|]. split; vm_compute; reflexivity. Qed.
Print Assumptions C15_omp_inclusive_scan_noncommutative_refuted.

(** C16. Holds when [init] is a left identity (and the operator commutative). *)
Theorem C16_omp_exclusive_scan_partial : forall (A : Type) (op : A -> A -> A) zero nths sched loc0 fi fo n init (m : nat -> A),
  (forall x y z, op x (op y z) = op (op x y) z) -> (forall x y, op x y = op y x) ->
  (forall x, op init x = x) ->
  1 <= nths -> fair nths sched -> (fo + n <= fi \/ fi + n <= fo) ->
  let r := omp_exclusive_scan op zero nths sched loc0 fi fo n init m in
  (forall i, i < n -> r (fo + i) = excl_at op init (contents m fi n) i) /\
  (forall a, ~ (fo <= a < fo + n) -> r a = m a).
Proof. intros A op. exact (omp_excl_ok op). Qed.
Print Assumptions C16_omp_exclusive_scan_partial.

Example C16_case : map (omp_exclusive_scan Nat.add 0 3 (fun _ => [2;0;1]) (fun _ => 77) 0 10 7 0 (fun k => S k)) (seq 10 8)
  = [0;1;3;6;10;15;21;18].
Proof. vm_compute. reflexivity. Qed.

(** Finding: for another initial value it is dropped from every position except chunk starts, already with one
    thread: + with init 5 on [1;2;3] gives [5;1;3], not [5;6;8]. *)
Theorem C16_omp_exclusive_scan_init_refuted :
  let m := fun k => S k in
  fair 1 (fun _ => [0]) /\
  map (omp_exclusive_scan Nat.add 0 1 (fun _ => [0]) (fun _ => 0) 0 10 3 5 m) (seq 10 3) = [5; 1; 3] /\
  map (excl_at Nat.add 5 (contents m 0 3)) (seq 0 3) = [5; 6; 8].
Proof. split; [intro; apply Permutation_refl|]. split; vm_compute; reflexivity. Qed.
Print Assumptions C16_omp_exclusive_scan_init_refuted.

(** C17. Every monoid (commutativity not needed), every thread count and interleaving, init the identity. *)
Theorem C17_omp_reduce_partial : forall (A : Type) (op : A -> A -> A) nths,
  1 <= nths -> forall sched, fair nths sched ->
  (forall x y z, op x (op y z) = op (op x y) z) ->
  forall e, (forall x, op e x = x) -> (forall x, op x e = x) ->
  forall fi fo n (m : nat -> A) loc0,
  let r := omp_reduce op nths sched loc0 fi fo n e m in
  r fo = fold_left op (contents m fi n) e /\ (forall a, a <> fo -> r a = m a).
Proof.
  intros A op nths Hn sched Hs Ha e H1 H2 fi fo n m loc0.
  exact (omp_reduce_ok op n nths Hn sched Hs Ha e H2 fi fo m loc0).
Qed.
Print Assumptions C17_omp_reduce_partial.

Example C17_case : omp_reduce (fun x y => x ++ y) 3 (fun _ => [2;0;1]) (fun _ => [77]) 0 9 8 [] (fun k => [k]) 9
  = [0;1;2;3;4;5;6;7].
Proof. vm_compute. reflexivity. Qed.

(** Finding: another initial value is counted once per thread. *)
Theorem C17_omp_reduce_init_refuted :
  let m := fun k => S k in
  fair 2 (fun _ => [0;1]) /\
  omp_reduce Nat.add 2 (fun _ => [0;1]) (fun _ => 0) 0 9 3 1 m 9 = 8 /\
  fold_left Nat.add (contents m 0 3) 1 = 7.
Proof. split; [intro; apply Permutation_refl|]. split; vm_compute; reflexivity. Qed.
Print Assumptions C17_omp_reduce_init_refuted.
