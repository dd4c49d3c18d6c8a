(** C99: vertex normals. *)
From Coq Require Import Reals Lra Psatz.
From Verif Require Import Prelude MnModel MnSpec MnProofs.
Local Open Scope R_scope.

(** every schedule gives each vertex the normalised sum of the area normals of the triangles at it, times scale; a vanishing sum gives no number *)
Theorem C99_normals : forall pos norms tris scale out, length norms <> length pos -> (forall t, In t tris -> at_most (length pos) t) ->
  mesh_normal pos norms tris scale (length pos) out ->
  exists ns, out = Some ns /\ length ns = length pos /\ forall v, (v < length pos)%nat ->
    exists n, nth_error ns v = Some n /\ (sum_at pos tris v <> origin -> directed (sum_at pos tris v) scale n) /\ (sum_at pos tris v = origin -> n = None).
Proof.
  intros pos norms tris scale out N W (r & L & ->). destruct (Nat.eqb_spec (length norms) (length pos)) as [E|_]; [contradiction|].
  destruct (loop_sums pos tris (repeat 0 (3 * length pos)) (length pos) r) as (mem' & -> & V); [intros t I; split; apply W, I|apply repeat_length|intros k _; apply nth_repeat0|exact L|].
  exists (finish scale (length pos) mem'). split; [reflexivity|]. unfold finish. split; [now rewrite map_length, seq_length|].
  intros v H. exists (normalize scale (vertex mem' v)). split.
  - rewrite nth_error_map. rewrite (nth_error_nth' _ 0%nat) by (rewrite seq_length; exact H). rewrite seq_nth by exact H. reflexivity.
  - rewrite (V v H). destruct (normalize_spec scale (sum_at pos tris v)) as [(Z & Q)|D]; split; intros G; [contradiction|exact Q|exact D|destruct D; contradiction].
Qed.
Print Assumptions C99_normals.

(** the normals have length |scale| *)
Theorem C99_length : forall n scale out, directed n scale out -> exists u, out = Some u /\ len u = Rabs scale /\ dot u n = scale * len n.
Proof.
  intros n scale out (N & u & -> & ->). exists (times (scale / len n) n). split; [reflexivity|].
  assert (P : 0 < len n). { destruct (Rle_lt_or_eq_dec 0 (len n) (sqrt_pos _)) as [H|H]; [exact H|]. exfalso. apply N, len_zero. congruence. }
  assert (S : len n * len n = dot n n) by (apply sqrt_sqrt; unfold dot; nra). split.
  - unfold len at 1. replace (dot (times (scale / len n) n) (times (scale / len n) n)) with (Rsqr scale); [apply sqrt_Rsqr_abs|].
    transitivity (scale * scale / (len n * len n) * dot n n); [rewrite S; unfold Rsqr; field; nra|unfold dot, times; cbn; field; lra].
  - transitivity (scale / len n * dot n n); [unfold dot, times; cbn; ring|]. rewrite <- S. field. lra.
Qed.
Print Assumptions C99_length.

(** if the triangles at a vertex all face in direction d, so does its normal *)
Theorem C99_flat : forall pos tris v d, d <> origin -> (forall t, In t tris -> touches t v -> exists c, 0 < c /\ area_normal pos t = times c d) -> (exists t, In t tris /\ touches t v) ->
  exists c, 0 < c /\ sum_at pos tris v = times c d.
Proof.
  intros pos tris v d _ H (t0 & I0 & T0).
  assert (C : forall t, (touches t v /\ 0 < corners t v) \/ (~ touches t v /\ corners t v = 0)).
  { intros ((i, j), k). unfold touches, corners. destruct (Nat.eqb_spec i v), (Nat.eqb_spec j v), (Nat.eqb_spec k v); try (left; split; [tauto|lra]); right; split; [tauto|lra]. }
  assert (G : exists c, 0 <= c /\ sum_at pos tris v = times c d /\ ((exists t, In t tris /\ touches t v) -> 0 < c)).
  { clear I0 T0 t0. induction tris as [|t r IH]; [exists 0; split; [lra|]; split; [unfold sum_at, times, origin; cbn; f_equal; ring|intros (t & [] & _)]|].
    destruct IH as (c & P & E & Q); [intros u U; apply H; now right|]. cbn [sum_at fold_right]. fold (sum_at pos r v). rewrite E.
    destruct (C t) as [(T & K)|(T & K)].
    - destruct (H t (or_introl eq_refl) T) as (a & A & ->). exists (corners t v * a + c). split; [nra|]. split; [unfold plus, times; cbn; f_equal; ring|intros _; nra].
    - exists c. split; [exact P|]. rewrite K. split; [unfold plus, times; cbn; f_equal; ring|]. intros (u & [<-|U] & X); [contradiction|apply Q; exists u; tauto]. }
  destruct G as (c & _ & E & Q). exists c. split; [apply Q; exists t0; tauto|exact E].
Qed.
Print Assumptions C99_flat.

(** with given normals: a vertex of some triangle gets its own, normalised; the stores may come in any order *)
Theorem C99_given : forall pos norms tris scale out, length norms = length pos -> (forall t, In t tris -> at_most (length pos) t) ->
  mesh_normal pos norms tris scale (length pos) out ->
  exists ns, out = Some ns /\ length ns = length pos /\ forall v, (v < length pos)%nat -> exists n, nth_error ns v = Some n /\
    ((exists t, In t tris /\ touches t v) -> nth v norms origin <> origin -> directed (nth v norms origin) scale n) /\
    ((forall t, In t tris -> ~ touches t v) -> n = None).
Proof.
  intros pos norms tris scale out N W (r & L & ->). rewrite N, Nat.eqb_refl in L. unfold loop in L.
  destruct (copies norms tris) as (ops & A & K); [rewrite N; exact W|]. rewrite A in L. destruct L as (order & P & ->).
  destruct (apply_store order (fun k => comp (k mod 3) (nth (k / 3) norms origin)) (repeat 0 (3 * length pos))) as (mem' & E & _ & M).
  { intros k x I. apply (Permutation_in _ P), K in I. destruct I as (t & v & d & T & V & D & -> & ->). rewrite repeat_length. split.
    - specialize (W t T). destruct t as ((i, j), l). cbn in V, W. lia.
    - replace (3 * v + d)%nat with (d + v * 3)%nat by lia. rewrite Nat.mod_add, Nat.div_add, Nat.mod_small, Nat.div_small by lia. reflexivity. }
  rewrite E. exists (finish scale (length pos) mem'). split; [reflexivity|]. unfold finish. split; [now rewrite map_length, seq_length|].
  intros v H. exists (normalize scale (vertex mem' v)). split.
  { rewrite nth_error_map. rewrite (nth_error_nth' _ 0%nat) by (rewrite seq_length; exact H). rewrite seq_nth by exact H. reflexivity. }
  rewrite repeat_length in M. split.
  - intros (t & T & V) Z. assert (Q : vertex mem' v = nth v norms origin).
    { assert (C : forall d, (d < 3)%nat -> nth (3 * v + d) mem' 0 = comp d (nth v norms origin)).
      { intros d D. destruct (M (3 * v + d)%nat) as (M1 & _); [lia|]. rewrite M1.
        - replace (3 * v + d)%nat with (d + v * 3)%nat by lia. rewrite Nat.mod_add, Nat.div_add, Nat.mod_small, Nat.div_small by lia. reflexivity.
        - exists (comp d (nth v norms origin)). apply (Permutation_in _ (Permutation_sym P)), K. exists t, v, d. auto. }
      unfold vertex. rewrite (C 0%nat), (C 1%nat), (C 2%nat) by lia. destruct (nth v norms origin); reflexivity. }
    rewrite Q. destruct (normalize_spec scale (nth v norms origin)) as [(B & _)|D]; [contradiction|exact D].
  - intros T. assert (Q : vertex mem' v = origin).
    { assert (C : forall d, (d < 3)%nat -> nth (3 * v + d) mem' 0 = 0).
      { intros d D. destruct (M (3 * v + d)%nat) as (_ & M2); [lia|]. rewrite M2; [apply nth_repeat0|]. intros x I. apply (Permutation_in _ P), K in I.
        destruct I as (t & v' & d' & I & V & D' & E' & _). assert (v' = v) by lia. subst v'. exact (T t I V). }
      unfold vertex. rewrite (C 0%nat), (C 1%nat), (C 2%nat) by lia. reflexivity. }
    rewrite Q. destruct (normalize_spec scale origin) as [(_ & B)|(B & _)]; [exact B|contradiction].
Qed.
Print Assumptions C99_given.

(** the version for a part of a mesh, when the nodes start at 0 *)
Theorem C99_part_partial : forall pos num tris triOffset triNum old out, length old = (3 * num)%nat -> (triOffset + triNum <= length tris)%nat -> (num <= length pos)%nat ->
  let chosen := firstn triNum (skipn triOffset tris) in (forall t, In t chosen -> at_most num t) ->
  part_normal pos 0 num tris triOffset triNum old out ->
  exists ns, out = Some ns /\ length ns = num /\ forall v, (v < num)%nat ->
    exists n, nth_error ns v = Some n /\ (sum_at pos chosen v <> origin -> directed (sum_at pos chosen v) 1 n).
Proof.
  intros pos num tris triOffset triNum old out O T Le chosen W. unfold part_normal.
  destruct (Nat.ltb_spec (length old) (3 * num)) as [X|_]; [lia|]. destruct (Nat.ltb_spec (length tris) (triOffset + triNum)) as [X|_]; [lia|]. rewrite (skipn_all2 old) by lia. rewrite app_nil_r.
  intros (r & L & ->). destruct (loop_sums pos chosen (repeat 0 (3 * num)) num r) as (mem' & -> & V).
  - intros t I. split; [|apply W, I]. specialize (W t I). destruct t as ((i, j), k). cbn in *. lia.
  - apply repeat_length.
  - intros k _. apply nth_repeat0.
  - exact L.
  - exists (finish 1 num mem'). split; [reflexivity|]. unfold finish. split; [now rewrite map_length, seq_length|]. intros v H. exists (normalize 1 (vertex mem' v)). split.
    + rewrite nth_error_map. rewrite (nth_error_nth' _ 0%nat) by (rewrite seq_length; exact H). rewrite seq_nth by exact H. reflexivity.
    + rewrite (V v H). intros G. destruct (normalize_spec 1 (sum_at pos chosen v)) as [(Z & _)|D]; [contradiction|exact D].
Qed.
Print Assumptions C99_part_partial.

Definition unit_triangle : list v3 := [V3 0 0 0; V3 1 0 0; V3 0 1 0].
(** a part that does not start at node 0 (here nodes 3 to 5, one triangle): the additions fall outside the array of 3 normals *)
Theorem C99_offset_refuted : exists pos tris, (forall t, In t tris -> at_most (length pos) t /\ let '(i, j, k) := t in (3 <= i /\ 3 <= j /\ 3 <= k)%nat) /\ length pos = (3 + 3)%nat /\
  forall old out, length old = 9%nat -> part_normal pos 3 3 tris 0 1 old out -> out = None.
Proof.
  exists (unit_triangle ++ unit_triangle), [(3, 4, 5)%nat]. split; [intros t [<-|[]]; cbn; lia|]. split; [reflexivity|].
  intros old out O. unfold part_normal. rewrite O. cbn [Nat.ltb Nat.leb Nat.mul Nat.add length]. rewrite (skipn_all2 old) by (rewrite O; cbn; lia). rewrite app_nil_r.
  cbn [skipn firstn]. intros (r & L & ->). unfold loop in L. cbn [all_ops face_ops nth_error unit_triangle app] in L. destruct L as (order & P & ->).
  destruct order as [|(k, x) order]; [apply Permutation_nil in P; discriminate|].
  assert (K : (9 <= k)%nat). { assert (I : In (k, x) ((k, x) :: order)) by now left. apply (Permutation_in _ P) in I. cbn in I. repeat destruct I as [I|I]; try (injection I as <- _; lia). destruct I. }
  cbn [apply_ops]. destruct (nth_error (repeat 0 9) k) eqn:E; [|reflexivity]. apply nth_error_some_lt in E. rewrite repeat_length in E. lia.
Qed.
Print Assumptions C99_offset_refuted.
(** a node of no triangle gets no number at all *)
Theorem C99_isolated_refuted : exists pos tris, (forall t, In t tris -> at_most (length pos) t) /\
  forall out, mesh_normal pos [] tris 1 (length pos) out -> exists ns, out = Some ns /\ nth_error ns 3 = Some None.
Proof.
  exists (unit_triangle ++ [V3 5 5 5]), [(0, 1, 2)%nat]. split; [intros t [<-|[]]; cbn; lia|]. intros out M.
  apply C99_normals in M; [|discriminate|intros t [<-|[]]; cbn; lia]. destruct M as (ns & -> & _ & V). exists ns. split; [reflexivity|].
  destruct (V 3%nat) as (n & N & _ & Z); [cbn; lia|]. rewrite N. f_equal. apply Z. unfold sum_at, plus, times, origin. cbn. f_equal; ring.
Qed.
Print Assumptions C99_isolated_refuted.

(** the triangle (0,0,0), (1,0,0), (0,1,0): its area normal is (0,0,1), every vertex gets (0,0,scale), and runs exist *)
Example C99_ex : sum_at unit_triangle [(0, 1, 2)%nat] 1 = V3 0 0 1 /\ directed (V3 0 0 1) 2 (Some (V3 0 0 2)) /\ (exists out, mesh_normal unit_triangle [] [(0, 1, 2)%nat] 2 3 out) /\
  (exists out, part_normal unit_triangle 0 3 [(0, 1, 2)%nat] 0 1 (repeat 7 9) out).
Proof.
  split; [unfold sum_at, plus, times, origin; cbn; f_equal; ring|]. split.
  - split; [unfold origin; intros E; injection E; lra|]. exists (V3 0 0 2). split; [reflexivity|]. assert (L : len (V3 0 0 1) = 1) by (unfold len, dot; cbn; replace (0 * 0 + 0 * 0 + 1 * 1) with 1 by ring; apply sqrt_1).
    rewrite L. unfold times. cbn. f_equal; field.
  - split; eexists; unfold mesh_normal, part_normal, loop; cbn [length Nat.eqb unit_triangle all_ops face_ops nth_error skipn firstn Nat.ltb Nat.leb repeat Nat.mul Nat.add app];
      eexists; (split; [eexists; split; [apply Permutation_refl|reflexivity]|reflexivity]).
Qed.
