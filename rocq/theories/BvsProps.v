(** C37: LBvs.  [dsort] is the device sort used by build (assumed to sort); refit uses the modelled sequential merge sort. *)
From Coq Require Import Sorted.
From Verif Require Import Prelude SortModel SortSpec SortProofs SortProofs2 BvsModel BvsSpec BvsProofs.
Open Scope Z_scope.

(** build and refit never access outside the arrays *)
Theorem C37_build_total : forall dim dsort prims axis, sorts dsort -> exists t, build dim dsort prims axis = Some t.
Proof. exact build_total. Qed.
Print Assumptions C37_build_total.
Theorem C37_refit_total : forall dim dsort prims0 t prims tmp, (0 < dim)%nat -> sorts dsort -> live dim dsort prims0 t -> length prims = length prims0 ->
  length tmp = length prims -> exists t', refit t prims tmp = Some t'.
Proof. exact refit_total. Qed.
Print Assumptions C37_refit_total.
(** after build and any number of refits, iter_neighbors reports each primitive meeting the query exactly once *)
Theorem C37_iter_neighbors_exact : forall dim dsort prims t q, (0 < dim)%nat -> sorts dsort -> live dim dsort prims t ->
  Forall (nonempty dim) prims -> nonempty dim q -> exists out, iter_neighbors dim t q = Some out /\ exact_hits dim prims q out.
Proof. exact live_iter. Qed.
Print Assumptions C37_iter_neighbors_exact.
(** self_iter_neighbors over all nodes reports each unordered pair of intersecting primitives exactly once *)
Theorem C37_self_pairs_exact : forall dim dsort prims t, (0 < dim)%nat -> sorts dsort -> live dim dsort prims t -> Forall (nonempty dim) prims ->
  exists out, self_all dim t (seq 0 (length prims)) = Some out /\ exact_pairs dim prims out.
Proof. exact live_pairs. Qed.
Print Assumptions C37_self_pairs_exact.
(** locate(v): the last stored box whose lower bound on the axis is <= v, -1 if none *)
Theorem C37_locate : forall dim dsort prims t v, (0 < dim)%nat -> sorts dsort -> live dim dsort prims t -> exists r, locate t v = Some r /\
  -1 <= r < Z.of_nat (length prims) /\ forall i b, nth_error (bvs t) i = Some b -> (Z.of_nat i <= r <-> bmin b (ax t) <= v).
Proof. exact live_locate. Qed.
Print Assumptions C37_locate.

(** the contract of dsort can be met: the merge sort of SortModel *)
Definition a_sort (l : list (Z * nat)) : list (Z * nat) := match merge_sort (fun p q : Z * nat => fst p <? fst q) l l with Some s => s | None => l end.
Example C37_sort_exists : sorts a_sort.
Proof.
  intro l. unfold a_sort. destruct (merge_sort_ok (fun p q : Z * nat => fst p <? fst q) key_swo l l eq_refl) as (s & -> & P & Sm & _). split; [symmetry; exact P|].
  clear P. unfold ascending in Sm. induction Sm as [|x s S' IH F]; constructor; [assumption|revert F; apply Forall_impl; intros; lia].
Qed.
Example C37_case : exists t, build 2 a_sort [([4; 0], [6; 1]); ([0; 0], [4; 2]); ([0; 5], [9; 6])] (-1) = Some t /\ ax t = 0%nat /\
  iter_neighbors 2 t ([4; 1], [4; 5]) = Some [1; 2; 0]%nat /\ self_all 2 t (seq 0 3) = Some [(1, 0)]%nat /\
  exists t', refit t [([4; 0], [6; 1]); ([5; 1], [7; 2]); ([0; 0], [9; 6])] [(0, 0%nat); (0, 0%nat); (0, 0%nat)] = Some t' /\
  self_all 2 t' (seq 0 3) = Some [(2, 0); (2, 1); (0, 1)]%nat.
Proof. eexists. repeat split. eexists. repeat split. Qed.
