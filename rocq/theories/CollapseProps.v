(** C13: Collapse/ndrange enumerates the index box exactly once. *)
From Verif Require Import Prelude CollapseModel CollapseSpec CollapseProofs CollapseProofs2.
From Coq Require Import Sorted.
Local Open Scope Z_scope.

(** For every dimension, a non-negative first extent and positive inner extents: the loop terminates and visits
    exactly the tuples of the box, in strictly increasing lexicographic order (hence each once). *)
Theorem C13_collapse_enumerates_box_partial :
  forall ns n0 ms, ns = n0 :: ms -> 0 <= n0 -> Forall (fun m => 1 <= m) ms ->
  exists l N, (forall fuel, (N <= fuel)%nat -> visits fuel ns (col_begin ns) = Some l) /\
    (forall t, In t l <-> in_box ns t) /\ StronglySorted lexlt l.
Proof. exact collapse_ok. Qed.
Print Assumptions C13_collapse_enumerates_box_partial.

(** strictly increasing lists have no duplicates *)
Theorem C13_lex_increasing_once : forall l, StronglySorted lexlt l -> NoDup l.
Proof. exact lexsorted_nodup. Qed.
Print Assumptions C13_lex_increasing_once.

Example C13_case : visits 20 [2; 3; 2] (col_begin [2; 3; 2]) =
  Some [[0;0;0];[0;0;1];[0;1;0];[0;1;1];[0;2;0];[0;2;1];[1;0;0];[1;0;1];[1;1;0];[1;1;1];[1;2;0];[1;2;1]].
Proof. vm_compute. reflexivity. Qed.

(** Finding: with a zero inner extent the loop visits tuples outside the (empty) box: Collapse(2,0) visits
    (0,0) and (1,0). *)
Theorem C13_collapse_zero_inner_extent_refuted :
  exists l, visits 10 [2; 0] (col_begin [2; 0]) = Some l /\ exists t, In t l /\ ~ in_box [2; 0] t.
Proof. exact collapse_zero_inner. Qed.
Print Assumptions C13_collapse_zero_inner_extent_refuted.

(** The general case: for any non-negative extents the loop terminates and visits, in increasing lexicographic order, the box in which
    every empty inner extent counts as one; an empty first extent gives no iteration. *)
Theorem C13_collapse_nonnegative_extents :
  forall n0 ms, 0 <= n0 -> Forall (fun m => 0 <= m) ms ->
  exists l N, (forall fuel, (N <= fuel)%nat -> visits fuel (n0 :: ms) (col_begin (n0 :: ms)) = Some l) /\
    (forall t, In t l <-> in_box (n0 :: map (Z.max 1) ms) t) /\ StronglySorted lexlt l.
Proof. intros n0 ms H0 H. apply (collapse_nonneg (n0 :: ms)). discriminate. constructor; auto. Qed.
Print Assumptions C13_collapse_nonnegative_extents.
