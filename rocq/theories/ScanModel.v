(** Model of the scan and reduce primitives:
    execution/ExecutionPolicy.hpp:247-274 (sequential) and omp/execution/ExecutionPolicy.hpp:264-473 (OpenMP).
    Memory is a function from addresses to values; [fi], [fo] are the addresses of *first and *d_first, [n] the
    distance last - first.  Input and output ranges may alias. *)
From Verif Require Import Prelude.

Section Scan.
  Context {A : Type}.
  Variable op : A -> A -> A.
  Notation mem := (nat -> A).

  (** an assignment through an output iterator (ExecutionPolicy.hpp 247-274) *)
  Definition mset (m : mem) (a : nat) (x : A) : mem := fun b => if b =? a then x else m b.

  (** ---- sequential ---- *)

  (** The while loop of ExecutionPolicy.hpp:252: [k] is the current offset, [c] the number of remaining elements. *)
  Fixpoint incl_loop (c k fi fo : nat) (prev : A) (m : mem) : mem :=
    match c with
    | O => m
    | S c' => let prev' := op prev (m (fi + k)) in incl_loop c' (S k) fi fo prev' (mset m (fo + k) prev')
    end.
  (** inclusive_scan (ExecutionPolicy.hpp:247-253). *)
  Definition seq_inclusive_scan (fi fo n : nat) (m : mem) : mem :=
    match n with
    | O => m
    | S n' => let prev := m fi in incl_loop n' 1 fi fo prev (mset m fo prev)
    end.

  (** The while loop of ExecutionPolicy.hpp:263: reads input [k], writes output [k+1]. *)
  Fixpoint excl_loop (c k fi fo : nat) (init : A) (m : mem) : mem :=
    match c with
    | O => m
    | S c' => let init' := op init (m (fi + k)) in excl_loop c' (S k) fi fo init' (mset m (fo + S k) init')
    end.
  (** exclusive_scan (ExecutionPolicy.hpp:257-264). *)
  Definition seq_exclusive_scan (fi fo n : nat) (init : A) (m : mem) : mem :=
    match n with
    | O => m
    | S n' => excl_loop n' 0 fi fo init (mset m fo init)
    end.

  (** The for loop of ExecutionPolicy.hpp:272. *)
  Fixpoint red_loop (c k fi : nat) (init : A) (m : mem) : A :=
    match c with O => init | S c' => red_loop c' (S k) fi (op init (m (fi + k))) m end.
  (** reduce (ExecutionPolicy.hpp:267-274). *)
  Definition seq_reduce (fi fo n : nat) (init : A) (m : mem) : mem := mset m fo (red_loop n 0 fi init m).

  (** ---- OpenMP ---- *)
  (** A parallel region is a sequence of phases separated by barriers.  Each phase executes every thread's
      phase body once, in the order given by a schedule: [ord] is a list of thread ids (a permutation of
      0..nths-1).  Simplification: a thread's body of one phase is executed without interruption; the bodies of
      one phase touch disjoint locations except for read-only sharing. *)
  Variable zero : A.                    (* ValueT{} *)

  (** nwork, st, ed (omp/execution/ExecutionPolicy.hpp:292-295 = 368-371 = 448-451). *)
  Definition nwork (dist nths : nat) : nat := (dist + nths - 1) / nths.
  Definition st_of (dist nths tid : nat) : nat := nwork dist nths * tid.
  Definition ed_of (dist nths tid : nat) : nat := Nat.min (st_of dist nths tid + nwork dist nths) dist.
  Definition active (dist nths tid : nat) : bool := st_of dist nths tid <? ed_of dist nths tid.

  (** shared memory, localRes, and each thread's private [tmp]. *)
  Record ost := mkO { o_mem : mem; o_loc : nat -> A; o_tmp : nat -> A }.

  (** loop of lines 301-304 *)
  Fixpoint incl_chunk (c k fi fo : nat) (res : A) (m : mem) : A * mem :=
    match c with
    | O => (res, m)
    | S c' => let res' := op res (m (fi + k)) in incl_chunk c' (S k) fi fo res' (mset m (fo + k) res')
    end.
  (** inclusive_scan_impl, first phase (297-306) and [tmp = res] (309). *)
  Definition incl_phase1 (dist nths fi fo : nat) (s : ost) (t : nat) : ost :=
    let st := st_of dist nths t in let ed := ed_of dist nths t in
    if st <? ed then
      let res := o_mem s (fi + st) in
      let m := mset (o_mem s) (fo + st) res in
      let (res', m') := incl_chunk (ed - (st + 1)) (st + 1) fi fo res m in
      mkO m' (mset (o_loc s) t res') (mset (o_tmp s) t res')
    else mkO (o_mem s) (o_loc s) (mset (o_tmp s) t zero).

  (** loop of lines 377-380 *)
  Fixpoint excl_chunk (c k fi fo : nat) (res : A) (m : mem) : A * mem :=
    match c with
    | O => (res, m)
    | S c' => let m' := mset m (fo + k) res in excl_chunk c' (S k) fi fo (op res (m' (fi + k))) m'
    end.
  (** exclusive_scan_impl, first phase (373-382) and [tmp = res] (385). *)
  Definition excl_phase1 (dist nths fi fo : nat) (init : A) (s : ost) (t : nat) : ost :=
    let st := st_of dist nths t in let ed := ed_of dist nths t in
    if st <? ed then
      let m := mset (o_mem s) (fo + st) init in
      let res := m (fi + st) in
      let (res', m') := excl_chunk (ed - (st + 1)) (st + 1) fi fo res m in
      mkO m' (mset (o_loc s) t res') (mset (o_tmp s) t res')
    else mkO (o_mem s) (o_loc s) (mset (o_tmp s) t zero).

  (** line 311 = 387 *)
  Definition scan_strideA (dist nths stride : nat) (s : ost) (t : nat) : ost :=
    if (stride <=? t) && active dist nths t
    then mkO (o_mem s) (o_loc s) (mset (o_tmp s) t (op (o_tmp s t) (o_loc s (t - stride)))) else s.
  (** line 313 = 389 *)
  Definition scan_strideB (dist nths stride : nat) (s : ost) (t : nat) : ost :=
    if (stride <=? t) && active dist nths t
    then mkO (o_mem s) (mset (o_loc s) t (o_tmp s t)) (o_tmp s) else s.
  (** loop of lines 319-320 = 395-396 *)
  Fixpoint fix_chunk (c k fo : nat) (x : A) (m : mem) : mem :=
    match c with
    | O => m
    | S c' => fix_chunk c' (S k) fo x (mset m (fo + k) (op (m (fo + k)) x))
    end.
  (** lines 317-321 = 393-397 *)
  Definition scan_final (dist nths fo : nat) (s : ost) (t : nat) : ost :=
    let st := st_of dist nths t in let ed := ed_of dist nths t in
    if negb (t =? 0) && (st <? ed)
    then mkO (fix_chunk (ed - st) st fo (o_loc s (t - 1)) (o_mem s)) (o_loc s) (o_tmp s) else s.

  (** the stride loop (310-315 = 386-391): stride doubles while below nths; two barrier-separated phases each.
      [fuel] bounds the number of doublings; nths is always enough.  [sched] is indexed by a phase counter. *)
  Fixpoint scan_strides (fuel dist nths stride : nat) (sched : nat -> list nat) (ph : nat) (s : ost) : ost * nat :=
    match fuel with
    | O => (s, ph)
    | S f =>
      if stride <? nths then
        let s1 := fold_left (scan_strideA dist nths stride) (sched ph) s in
        let s2 := fold_left (scan_strideB dist nths stride) (sched (S ph)) s1 in
        scan_strides f dist nths (stride * 2) sched (S (S ph)) s2
      else (s, ph)
    end.

  (** inclusive_scan_impl (264-326), [nths] threads. [loc0] is the unspecified initial content of localRes. *)
  Definition omp_inclusive_scan (nths : nat) (sched : nat -> list nat) (loc0 : nat -> A)
      (fi fo dist : nat) (m : mem) : mem :=
    let s1 := fold_left (incl_phase1 dist nths fi fo) (sched 0) (mkO m loc0 loc0) in
    let (s2, ph) := scan_strides nths dist nths 1 sched 1 s1 in
    o_mem (fold_left (scan_final dist nths fo) (sched ph) s2).

  (** exclusive_scan_impl (340-402). *)
  Definition omp_exclusive_scan (nths : nat) (sched : nat -> list nat) (loc0 : nat -> A)
      (fi fo dist : nat) (init : A) (m : mem) : mem :=
    let s1 := fold_left (excl_phase1 dist nths fi fo init) (sched 0) (mkO m loc0 loc0) in
    let (s2, ph) := scan_strides nths dist nths 1 sched 1 s1 in
    o_mem (fold_left (scan_final dist nths fo) (sched ph) s2).

  (** reduce_impl, first phase (453-457) and [tmp = res] (460). *)
  Definition red_phase1 (dist nths fi : nat) (init : A) (s : ost) (t : nat) : ost :=
    let st := st_of dist nths t in let ed := ed_of dist nths t in
    let res := if st <? ed then red_loop (ed - st) st fi init (o_mem s) else init in
    mkO (o_mem s) (mset (o_loc s) t res) (mset (o_tmp s) t res).
  (** line 462 *)
  Definition red_strideA (nths stride : nat) (s : ost) (t : nat) : ost :=
    if t + stride <? nths
    then mkO (o_mem s) (o_loc s) (mset (o_tmp s) t (op (o_tmp s t) (o_loc s (t + stride)))) else s.
  (** line 464 *)
  Definition red_strideB (nths stride : nat) (s : ost) (t : nat) : ost :=
    if t + stride <? nths then mkO (o_mem s) (mset (o_loc s) t (o_tmp s t)) (o_tmp s) else s.
  (** loop 461-466 *)
  Fixpoint red_strides (fuel nths stride : nat) (sched : nat -> list nat) (ph : nat) (s : ost) : ost * nat :=
    match fuel with
    | O => (s, ph)
    | S f =>
      if stride <? nths then
        let s1 := fold_left (red_strideA nths stride) (sched ph) s in
        let s2 := fold_left (red_strideB nths stride) (sched (S ph)) s1 in
        red_strides f nths (stride * 2) sched (S (S ph)) s2
      else (s, ph)
    end.
  (** line 468 *)
  Definition red_final (fo : nat) (s : ost) (t : nat) : ost :=
    if t =? 0 then mkO (mset (o_mem s) fo (o_tmp s 0)) (o_loc s) (o_tmp s) else s.
  (** reduce_impl (420-473). *)
  Definition omp_reduce (nths : nat) (sched : nat -> list nat) (loc0 : nat -> A)
      (fi fo dist : nat) (init : A) (m : mem) : mem :=
    let s1 := fold_left (red_phase1 dist nths fi init) (sched 0) (mkO m loc0 loc0) in
    let (s2, ph) := red_strides nths nths 1 sched 1 s1 in
    o_mem (fold_left (red_final fo) (sched ph) s2).
End Scan.
