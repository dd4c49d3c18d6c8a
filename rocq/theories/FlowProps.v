(** C44: maximum_flow. *)
From Verif Require Import Prelude SortModel CountModel BhtModel BhtSpec FlowModel FlowSpec FlowProofs FlowProofs2 FlowProofs3 FlowProofs4 FlowProofs5.
From Verif Require BhtProofs5.
Local Open Scope Z_scope.

(** the arguments: a well-formed matrix in which with every entry the transposed one is stored, source and sink different vertices, and the
    key with all bytes 0x3f is not the pair of an entry *)
Definition accepted (m : csr) (vals : list Z) (c : nat -> nat -> Z) (source sink : nat) (sent : nat * nat) (B : nat) (W : Z) : Prop :=
  network (verts m) (ptrs m) (cols m) vals /\ rows_apart (ptrs m) (cols m) /\ capacity (ptrs m) (cols m) vals c /\
  (source < verts m)%nat /\ (sink < verts m)%nat /\ source <> sink /\ (forall j, ~ entry (ptrs m) (cols m) (fst sent) (snd sent) j) /\
  (3 <= B)%nat /\ 64 <= W /\ Z.of_nat (table_size B (nnz m)) <= W.

Lemma resid_capacity m vals0 c vals f : network (verts m) (ptrs m) (cols m) vals0 -> capacity (ptrs m) (cols m) vals0 c -> resid m c vals f -> capacity (ptrs m) (cols m) vals (fun u v => c u v - f u v).
Proof.
  intros Hn Hc R u v. split; [intros j E; apply (r_val _ _ _ _ R _ _ _ E)|]. intro E. rewrite (proj2 (Hc u v) E). destruct (Z.eq_dec (f u v) 0) as [->|Nz]; [lia|]. destruct (r_sup _ _ _ _ R _ _ Nz) as (j & En). destruct (E _ En).
Qed.
(** C44, every schedule of the search (any interleaving of the accesses of its invocations) and of the table construction: the call does not
    access anything out of bounds; the value returned is the value of a feasible flow, the matrix is left with the residual capacities of
    that flow, and there are at most as many augmentations as the value. *)
Theorem C44_every_schedule_gives_a_feasible_flow : forall m vals c source sink top sent h B W, accepted m vals c source sink sent B W -> 0 < top ->
  forall k r, max_run sent h B W launch_any m vals top source sink k r ->
  exists res vals' f, r = Some (res, vals') /\ is_flow (verts m) c source sink f /\ value (verts m) source f = res /\
    capacity (ptrs m) (cols m) vals' (fun u v => c u v - f u v) /\ Z.of_nat k <= res.
Proof.
  intros m vals c source sink top sent h B W (Hn & Hr & Hc & Hs & Hk & Hsk & Hse & HB & HW & HT) Ht k r (tr & T & R).
  pose proof Hn as (N1 & _ & N3 & _ & N5 & _).
  destruct (table_ok m N1 N3 N5 Hr sent h B W HB HW HT Hse tr T) as (t & buf & -> & Hid). destruct R as (ps & Lp & L).
  destruct (loop_ok m vals source sink top c Hn Hr Hs Hk Hsk Ht h B t buf Hid launch_any (fun _ _ _ _ H => H) _ _ _ _ _ L (fun _ _ => 0) ltac:(eapply fi_zero; eauto) Lp) as (res & vals' & f & ps' & kf & b & E & (R & N & V) & K & _).
  exists res, vals', f. split; [exact E|]. split; [eapply (resid_flow m vals); eauto|]. split; [exact V|]. split; [eapply resid_capacity; eauto|lia].
Qed.
Print Assumptions C44_every_schedule_gives_a_feasible_flow.

(** C44 when the invocations of the search kernel do not overlap (in any order: the sequential policy): the value returned is the capacity
    of a cut between source and sink and the value of a feasible flow; no flow has a larger value.  Missing: overlapping invocations, for
    which this is false (below). *)
Theorem C44_maximum_flow_partial : forall m vals c source sink top sent h B W, accepted m vals c source sink sent B W -> 0 < top ->
  forall k r, max_run sent h B W launch_apart m vals top source sink k r ->
  exists res vals' f side, r = Some (res, vals') /\ is_flow (verts m) c source sink f /\ value (verts m) source f = res /\
    capacity (ptrs m) (cols m) vals' (fun u v => c u v - f u v) /\ Z.of_nat k <= res /\
    side source = true /\ side sink = false /\ res = cut (verts m) c side /\ (forall g, is_flow (verts m) c source sink g -> value (verts m) source g <= res).
Proof.
  intros m vals c source sink top sent h B W (Hn & Hr & Hc & Hs & Hk & Hsk & Hse & HB & HW & HT) Ht k r (tr & T & R).
  pose proof Hn as (N1 & _ & N3 & _ & N5 & _).
  destruct (table_ok m N1 N3 N5 Hr sent h B W HB HW HT Hse tr T) as (t & buf & -> & Hid). destruct R as (ps & Lp & L).
  destruct (loop_ok m vals source sink top c Hn Hr Hs Hk Hsk Ht h B t buf Hid launch_apart ltac:(intros; eapply apart_any'; eauto) _ _ _ _ _ L (fun _ _ => 0) ltac:(eapply fi_zero; eauto) Lp) as (res & vals' & f & ps' & kf & b & E & FI & K & Lp' & F).
  assert (Q : exists side, side source = true /\ side sink = false /\ res = cut (verts m) c side) by (eapply (last_cut m vals source sink top c); eauto). destruct Q as (side & S1 & S2 & S3). destruct FI as (R & N & V).
  exists res, vals', f, side. split; [exact E|]. split; [eapply (resid_flow m vals); eauto|]. split; [exact V|]. split; [eapply resid_capacity; eauto|]. split; [lia|]. split; [exact S1|]. split; [exact S2|]. split; [exact S3|].
  intros g G. rewrite S3. eapply value_le_cut; eauto.
Qed.
Print Assumptions C44_maximum_flow_partial.

(** such runs exist once the table of edges could be built *)
Theorem C44_maximum_flow_ends : forall m vals c source sink top sent h B W, accepted m vals c source sink sent B W -> 0 < top ->
  forall tr, table_run sent h B W m tr -> exists k r, max_run sent h B W launch_apart m vals top source sink k r.
Proof.
  intros m vals c source sink top sent h B W (Hn & Hr & Hc & Hs & Hk & Hsk & Hse & HB & HW & HT) Ht tr T. pose proof Hn as (N1 & _ & N3 & _ & N5 & _).
  destruct (table_ok m N1 N3 N5 Hr sent h B W HB HW HT Hse tr T) as (t & buf & -> & Hid).
  destruct (loop_ex m vals source sink top c Hn Hr Hc Hs Hk Hsk Ht h B t buf Hid _ vals 0 (fun _ _ => 0) (repeat 0 (verts m)) (le_n _) ltac:(eapply fi_zero; eauto) (repeat_length _ _)) as (k & r & L).
  exists k, r, (Some (t, buf)). split; [exact T|]. exists (repeat 0 (verts m)). split; [apply repeat_length|exact L].
Qed.
Print Assumptions C44_maximum_flow_ends.

Lemma total_enter m l : length (ptrs m) = S (verts m) -> (forall v, In v l -> (v < verts m)%nat) ->
  (total m (map (fun v => (v, Enter)) l) = 6 * length (flat_map (fun u => map (fun j => (u, nth j (cols m) O, j)) (row m u)) l) + 3 * length l)%nat.
Proof.
  intros Hp. induction l as [|v l IH]; intro H; [reflexivity|]. cbn [map total flat_map length]. rewrite IH by (intros; apply H; right; auto). rewrite app_length, map_length. unfold row. rewrite seq_length. unfold meas. cbn [fst snd]. lia.
Qed.
(** C44, the search, every schedule: no access out of bounds, an unfinished invocation can always go on, a launch takes at most
    6 nnz + 3 n steps, and there are at most 2 n - 1 launches. *)
Theorem C44_search_ends_on_every_schedule : forall m vals source sink top, network (verts m) (ptrs m) (cols m) vals -> rows_apart (ptrs m) (cols m) ->
  (source < verts m)%nat -> 0 < top -> forall ps b0, length ps = verts m -> top_of top (verts m) source ps = Some b0 ->
  (forall b b' ths j, searching (launch_any m vals sink) b0 b -> steps m vals sink j (set_found b false, enter m) (b', ths) ->
     (j <= 6 * nnz m + 3 * verts m)%nat /\ forall k v p, nth_error ths k = Some (v, p) -> exists b'' p', kstep m vals sink b' v p = Some (b'', p')) /\
  (forall k b, find_loop (launch_any m vals sink) k b0 b -> (k <= 2 * verts m - 1)%nat).
Proof.
  intros m vals source sink top Hn Hr Hs Ht ps b0 Lp E0. pose proof Hn as (N1 & N2 & N3 & N4 & N5 & _). assert (Nc : forall u v j, entry (ptrs m) (cols m) u v j -> (v < verts m)%nat) by (intros u v j E; apply (N4 _ _ _ E)).
  destruct (top_inv m vals source top N1 N2 Hs Ht ps b0 Lp E0) as (I0 & P0). split.
  - intros b b' ths j Sr St. assert (I : inv m vals source top b (enter m)).
    { clear St. induction Sr as [|b b1 Sr IH F L Fd]; [exact I0|]. apply (launch_ok m vals source sink top N1 Nc N2 Hs b b1 false IH L). }
    pose proof (inv_reenter m vals source top N1 N2 Hs b (enter m) false I) as I1. pose proof (inv_steps m vals source sink top N1 Nc N2 Hs j _ _ _ _ I1 St) as I2. split.
    + pose proof (steps_bound m vals source sink top N1 Nc N2 Hs j _ _ _ _ I1 St) as Q. unfold enter in Q. rewrite (total_enter m (seq 0 (verts m)) N1) in Q by (intros v Iv; apply in_seq in Iv; lia). rewrite seq_length in Q.
      pose proof (edges_count m N1 N3 Hr) as C. unfold edges in C. lia.
    + intros k v p E. apply (progress m vals source sink top N1 N3 Nc N2 Hs b' ths k v p I2 E).
  - intros k b L. destruct (find_any m vals source sink top N1 Nc N2 Hs k b0 b L I0). lia.
Qed.
Print Assumptions C44_search_ends_on_every_schedule.

(** C44 without its hypotheses.  When source and sink are the same vertex the call never returns. *)
Theorem C44_source_is_sink_refuted : forall m vals source top sent h B W, network (verts m) (ptrs m) (cols m) vals -> rows_apart (ptrs m) (cols m) ->
  (forall j, ~ entry (ptrs m) (cols m) (fst sent) (snd sent) j) -> (3 <= B)%nat -> 64 <= W -> Z.of_nat (table_size B (nnz m)) <= W ->
  (source < verts m)%nat -> 0 < top -> forall k r, ~ max_run sent h B W launch_any m vals top source source k r.
Proof.
  intros m vals source top sent h B W Hn Hr Hse HB HW HT Hs Ht k r (tr & T & R). pose proof Hn as (N1 & N2 & N3 & N4 & N5 & _). assert (Nc : forall u v j, entry (ptrs m) (cols m) u v j -> (v < verts m)%nat) by (intros u v j E; apply (N4 _ _ _ E)).
  destruct (table_ok m N1 N3 N5 Hr sent h B W HB HW HT Hse tr T) as (t & buf & -> & _). destruct R as (ps & Lp & L).
  assert (G : forall k ps b x, length ps = verts m -> find_run launch_any m vals top source source ps k b x -> x = true /\ par b source = -1 /\ length (parents b) = verts m).
  { intros k0 ps0 b x Lp0 (b0 & E0 & L0 & y & Ey & ->). destruct (top_inv m vals source top N1 N2 Hs Ht ps0 b0 Lp0 E0) as (I0 & _). destruct (find_any m vals source source top N1 Nc N2 Hs _ b0 b L0 I0) as (((_ & _ & L3 & _) & (_ & Q2 & Q3) & _) & _).
    split; [|auto]. unfold pf in Q3. rewrite (nth_some _ _ _ 0 Ey) in Q3. apply Z.ltb_lt. lia. }
  clear T. remember vals as vs in L at 1. remember 0 as z in L. clear Heqz. revert Heqvs Lp.
  induction L as [k ps vs res b F|k kf ps vs res b x vals' r F Ex P L IH|k ps vs res b x F Ex P]; intros -> Lp.
  - destruct (G _ _ _ _ Lp F) as (Q & _). discriminate.
  - destruct (G _ _ _ _ Lp F) as (_ & Q & Lb). apply IH; [|exact Lb]. cbn [push] in P. rewrite (nth_lt_some _ _ 0) in P by lia. change (nth source (parents b) 0) with (par b source) in P. rewrite Q in P. cbn in P. congruence.
  - destruct (G _ _ _ _ Lp F) as (_ & Q & Lb). cbn [push] in P. rewrite (nth_lt_some _ _ 0) in P by lia. change (nth source (parents b) 0) with (par b source) in P. rewrite Q in P. cbn in P. congruence.
Qed.
Print Assumptions C44_source_is_sink_refuted.

(** Building tables and running schedules for the examples: one thread inserts all edges in order. *)
Definition fx_h (it : nat) (k : nat * nat) : nat := fst k + 5 * snd k.
Definition fx_tab (n : nat) : @table (nat * nat) := {| keys := repeat (63, 63)%nat n; inds := repeat 0 n; cnt := O; act := repeat (O, O) n; succ := true; tsize := n |}.
Lemma table_by m N s ws buf : BhtProofs5.exec keq (63, 63)%nat fx_h 4 (2 ^ 32) (repeat O N) (start (fx_tab (table_size 4 (nnz m))) (map (map plain) [map fst (edges m)])) = Some s ->
  threads s = [{| cur := None; todo := [] |}] -> forallb (fun x => negb (snd x =? failure (2 ^ 32))) (log s) = true ->
  Forall2 (fun o j => In (okey (fst o), j) (edges m)) (log s) (map snd (edges m)) -> writes (log s) (map snd (edges m)) = Some ws -> run_stores (repeat O (nnz m)) ws = Some buf ->
  table_run (63, 63)%nat fx_h 4 (2 ^ 32) m (Some (tab s, buf)).
Proof.
  intros E Th NF F2 Wr Ru. exists (fx_tab (table_size 4 (nnz m))), (edges m), [map fst (edges m)], (length (repeat O N)), s, (map snd (edges m)), (repeat O (nnz m)).
  split; [auto|]. split; [cbn; apply app_nil_r|]. split; [unfold fresh, fx_tab; cbn [tsize keys inds act cnt succ]; rewrite !repeat_length; auto 7|]. split; [apply BhtProofs5.exec_steps; exact E|].
  split; [intros th I; rewrite Th in I; destruct I as [<-|[]]; auto|]. split; [intros o r I; rewrite forallb_forall in NF; specialize (NF _ I); cbn in NF; intros ->; rewrite Z.eqb_refl in NF; discriminate|].
  split; [exact F2|]. split; [apply repeat_length|]. rewrite Wr. exists ws. split; [auto|]. rewrite Ru. reflexivity.
Qed.
Definition built (m : csr) (N : nat) : option (@table (nat * nat) * list nat) :=
  bind (BhtProofs5.exec keq (63, 63)%nat fx_h 4 (2 ^ 32) (repeat O N) (start (fx_tab (table_size 4 (nnz m))) (map (map plain) [map fst (edges m)]))) (fun s =>
  match threads s with
  | [{| cur := None; todo := [] |}] =>
    if forallb (fun x => negb (snd x =? failure (2 ^ 32))) (log s) && (length (log s) =? length (edges m))%nat
       && forallb (fun p => if keq (okey (fst (fst p))) (fst (snd p)) then true else false) (combine (log s) (edges m))
    then bind (writes (log s) (map snd (edges m))) (fun ws => bind (run_stores (repeat O (nnz m)) ws) (fun buf => Some (tab s, buf))) else None
  | _ => None
  end).
Lemma Forall2_edges (E : list (nat * nat * nat)) : forall (l : list (@op (nat * nat) * Z)) es, length l = length es -> incl es E ->
  forallb (fun p => if keq (okey (fst (fst p))) (fst (snd p)) then true else false) (combine l es) = true -> Forall2 (fun o j => In (okey (fst o), j) E) l (map snd es).
Proof.
  induction l as [|o l IH]; intros [|e es] L I H; try discriminate; [constructor|]. cbn in H, L. destruct (keq (okey (fst o)) (fst e)) as [Q|]; [|discriminate]. cbn in H. constructor.
  - rewrite Q. destruct e as [k j]. cbn. apply I. left. reflexivity.
  - apply IH; [lia|intros x Ix; apply I; right; auto|exact H].
Qed.
Lemma built_run m N tr : built m N = Some tr -> table_run (63, 63)%nat fx_h 4 (2 ^ 32) m (Some tr).
Proof.
  intro H. unfold built in H. destruct (BhtProofs5.exec _ _ _ _ _ _ _) as [s|] eqn:E; [|discriminate]. cbn [bind] in H. destruct (threads s) as [|[[?|] [|? ?]] [|? ?]] eqn:Th; try discriminate.
  destruct (_ && _ && _)%bool eqn:C; [|discriminate]. apply andb_true_iff in C as (C & C3). apply andb_true_iff in C as (C1 & C2). apply Nat.eqb_eq in C2.
  destruct (writes _ _) as [ws|] eqn:Wr; [|discriminate]. cbn [bind] in H. destruct (run_stores _ ws) as [buf|] eqn:Ru; [|discriminate]. cbn [bind] in H. inversion H; subst tr.
  eapply table_by; eauto. apply Forall2_edges; auto. intros x; auto.
Qed.
Fixpoint kexec (m : csr) (vals : list Z) (sink : nat) (sched : list nat) (s : bst * list (nat * pc)) : option (bst * list (nat * pc)) :=
  match sched with
  | [] => Some s
  | k :: r => match nth_error (snd s) k with
              | None | Some (_, Done) => None
              | Some (v, p) => bind (kstep m vals sink (fst s) v p) (fun '(b', p') => bind (upd (snd s) k (v, p')) (fun ths' => kexec m vals sink r (b', ths')))
              end
  end.
Lemma kexec_steps m vals sink sched : forall s s', kexec m vals sink sched s = Some s' -> steps m vals sink (length sched) s s'.
Proof.
  induction sched as [|k r IH]; intros [b ths] s' E; cbn [kexec fst snd] in E; [inversion E; constructor|]. destruct (nth_error ths k) as [[v p]|] eqn:En; [|discriminate].
  assert (Np : p <> Done) by (intros ->; discriminate). assert (E' : bind (kstep m vals sink b v p) (fun '(b', p') => bind (upd ths k (v, p')) (fun ths' => kexec m vals sink r (b', ths'))) = Some s') by (destruct p; congruence).
  destruct (kstep m vals sink b v p) as [[b' p']|] eqn:K; [|discriminate]. cbn [bind] in E'. destruct (upd ths k (v, p')) as [ths'|] eqn:U; [|discriminate]. cbn [bind] in E'. cbn [length]. eapply S_one; eauto.
Qed.

(** An example meeting the hypotheses: edges 0-1 (3), 0-2 (2), 1-2 (5), 1-3 (2), 2-3 (3); runs exist, and all return 5. *)
Definition cx : csr := {| ptrs := [0; 2; 5; 8; 10]%nat; cols := [1; 2; 0; 2; 3; 0; 1; 3; 1; 2]%nat |}.
Definition cx_vals : list Z := [3; 2; 0; 5; 2; 0; 0; 3; 0; 0].
Definition cx_cap (u v : nat) : Z := match u, v with 0, 1 => (3)%Z | 0, 2 => (2)%Z | 1, 2 => (5)%Z | 1, 3 => (2)%Z | 2, 3 => (3)%Z | _, _ => (0)%Z end%nat.
Definition cx_flow (u v : nat) : Z := match u, v with 0, 1 => (3)%Z | 1, 0 => (-3)%Z | 0, 2 => (2)%Z | 2, 0 => (-2)%Z | 1, 2 => (1)%Z | 2, 1 => (-1)%Z | 1, 3 => (2)%Z | 3, 1 => (-2)%Z | 2, 3 => (3)%Z | 3, 2 => (-3)%Z | _, _ => (0)%Z end%nat.
Lemma cx_entry u v j : entry (ptrs cx) (cols cx) u v j <-> In (u, v, j) (edges cx).
Proof. symmetry. apply in_edges; [reflexivity|]. intros a x E. do 5 (destruct a as [|a]; [inversion E; cbn; lia|]). destruct a; discriminate. Qed.
Lemma cx_accepted : accepted cx cx_vals cx_cap 0 3 (63, 63)%nat 4 (2 ^ 32).
Proof.
  assert (Ee : edges cx = [(0, 1, 0); (0, 2, 1); (1, 0, 2); (1, 2, 3); (1, 3, 4); (2, 0, 5); (2, 1, 6); (2, 3, 7); (3, 1, 8); (3, 2, 9)]%nat) by reflexivity.
  split; [|split; [|split; [|split; [cbn; lia|split; [cbn; lia|split; [lia|split; [|split; [lia|split; [lia|vm_compute; discriminate]]]]]]]]].
  - split; [reflexivity|]. split; [reflexivity|]. split; [intros a x E; do 5 (destruct a as [|a]; [inversion E; cbn; lia|]); destruct a; discriminate|]. split; [|split].
    + intros u v j E. apply cx_entry in E. rewrite Ee in E. assert (R : In (v, u) (map fst (edges cx)) /\ (v < 4)%nat) by (rewrite Ee; cbn in E; repeat (destruct E as [E|E]; [inversion E; subst; split; [cbn; tauto|lia]|]); destruct E).
      destruct R as (R & Lv). split; [exact Lv|]. apply in_map_iff in R as ([[v' u'] j'] & Eq & R). cbn in Eq. inversion Eq; subst. exists j'. apply cx_entry. exact R.
    + intros u v j j' E E'. apply cx_entry in E. apply cx_entry in E'. rewrite Ee in E, E'. cbn in E, E'. repeat (destruct E as [E|E]; [inversion E; subst; clear E; repeat (destruct E' as [E'|E']; [congruence|]); destruct E'|]). destruct E.
    + repeat constructor; lia.
  - intros u u' v v' j E E'. apply cx_entry in E. apply cx_entry in E'. rewrite Ee in E, E'. cbn in E, E'. repeat (destruct E as [E|E]; [inversion E; subst; clear E; repeat (destruct E' as [E'|E']; [congruence|]); destruct E'|]). destruct E.
  - intros u v. split.
    + intros j E. apply cx_entry in E. rewrite Ee in E. cbn in E. repeat (destruct E as [E|E]; [inversion E; subst; reflexivity|]). destruct E.
    + intro H. assert (Q : ~ In (u, v) (map fst (edges cx))) by (intro I; apply in_map_iff in I as ([[u' v'] j] & Eq & I); cbn in Eq; inversion Eq; subst; apply (H j), cx_entry; exact I).
      rewrite Ee in Q. cbn in Q. destruct u as [|[|[|u]]], v as [|[|[|[|v]]]]; try reflexivity; exfalso; apply Q; tauto.
  - intros j E. apply cx_entry in E. rewrite Ee in E. cbn in E. repeat (destruct E as [E|E]; [inversion E|]). destruct E.
Qed.
Lemma cx_table : exists tr, table_run (63, 63)%nat fx_h 4 (2 ^ 32) cx tr.
Proof. destruct (built cx 64) as [tr|] eqn:T; [apply built_run in T; eauto|vm_compute in T; discriminate]. Qed.
Example C44_case : (exists k vals', max_run (63, 63)%nat fx_h 4 (2 ^ 32) launch_apart cx cx_vals 1000 0 3 k (Some (5, vals')))
  /\ (forall k r, max_run (63, 63)%nat fx_h 4 (2 ^ 32) launch_apart cx cx_vals 1000 0 3 k r -> exists vals', r = Some (5, vals')).
Proof.
  assert (G : forall k r, max_run (63, 63)%nat fx_h 4 (2 ^ 32) launch_apart cx cx_vals 1000 0 3 k r -> exists vals', r = Some (5, vals')).
  { intros k r M. destruct (C44_maximum_flow_partial cx cx_vals cx_cap 0 3 1000 (63, 63)%nat fx_h 4 (2 ^ 32) cx_accepted ltac:(lia) k r M) as (res & vals' & f & side & -> & F & V & _ & _ & _ & _ & _ & Mx).
    exists vals'. f_equal. f_equal. apply Z.le_antisymm.
    - rewrite <- V. apply (value_le_cut (verts cx) cx_cap 0 3 f (fun u => (u =? 0)%nat)); auto. cbn; lia.
    - apply (Mx cx_flow). split; [|split].
      + intros u v. destruct u as [|[|[|[|u]]]], v as [|[|[|[|v]]]]; reflexivity.
      + intros u v Lu Lv. cbn in Lu, Lv. destruct u as [|[|[|[|u]]]], v as [|[|[|[|v]]]]; cbn; lia.
      + intros u Lu N0 N3. cbn in Lu. destruct u as [|[|[|[|u]]]]; try reflexivity; lia. }
  split; [|exact G]. destruct cx_table as (tr & T). destruct (C44_maximum_flow_ends cx cx_vals cx_cap 0 3 1000 (63, 63)%nat fx_h 4 (2 ^ 32) cx_accepted ltac:(lia) tr T) as (k & r & M).
  destruct (G k r M) as (vals' & ->). eauto.
Qed.

(** C44 is false when invocations overlap: on the path 0-1-2 with capacities 5 the call returns 0 and leaves the matrix unchanged.  The
    invocation of vertex 1 starts after frontier[1] was set by that of vertex 0 but before potentialFlows[1] was written. *)
Definition px : csr := {| ptrs := [0; 1; 3; 4]%nat; cols := [1; 0; 2; 1]%nat |}.
Theorem C44_overlapping_invocations_miss_the_flow_refuted :
  max_run (63, 63)%nat fx_h 4 (2 ^ 32) launch_any px [5; 0; 5; 0] 1000 0 2 0 (Some (0, [5; 0; 5; 0])) /\
  (forall j r, max_run (63, 63)%nat fx_h 4 (2 ^ 32) launch_apart px [5; 0; 5; 0] 1000 0 2 j r -> exists vals', r = Some (5, vals')).
Proof.
  split.
  - destruct (built px 26) as [[t buf]|] eqn:T; [|vm_compute in T; discriminate]. apply built_run in T. exists (Some (t, buf)). split; [exact T|]. exists [7; 7; 7]. split; [reflexivity|].
    destruct (top_of 1000 3 0 [7; 7; 7]) as [b0|] eqn:E0; [|discriminate].
    destruct (kexec px [5; 0; 5; 0] 2 [2; 0; 0; 0; 0; 1; 1; 1; 1; 1; 1; 1; 1; 1; 1; 0; 0; 0; 0; 0]%nat (set_found b0 false, enter px)) as [[b ths]|] eqn:K; [|vm_compute in E0; inversion E0; subst; vm_compute in K; discriminate].
    apply kexec_steps in K as St. apply (L_end _ _ launch_any px 1000 0 2 _ _ 1 _ _ _ b). exists b0. split; [exact E0|]. vm_compute in E0. inversion E0; subst b0. vm_compute in K. inversion K; subst b ths.
    split; [|exists 0; split; reflexivity]. apply F_sink; [reflexivity| |reflexivity]. eexists _, _. split; [exact St|]. repeat constructor.
  - intros k r M. set (c := fun u v : nat => if ((u =? 0) && (v =? 1) || (u =? 1) && (v =? 2))%nat then 5 else 0).
    assert (Hp : forall u a, nth_error (ptrs px) u = Some a -> (a <= length (cols px))%nat) by (intros a x E; do 4 (destruct a as [|a]; [inversion E; cbn; lia|]); destruct a; discriminate).
    assert (Ei : forall u v j, entry (ptrs px) (cols px) u v j <-> (u = 0 /\ v = 1 /\ j = 0 \/ u = 1 /\ v = 0 /\ j = 1 \/ u = 1 /\ v = 2 /\ j = 2 \/ u = 2 /\ v = 1 /\ j = 3)%nat).
    { intros u v j. rewrite <- (in_edges px eq_refl Hp). cbn. split.
      - intros [E|[E|[E|[E|[]]]]]; inversion E; lia.
      - intros [(-> & -> & ->)|[(-> & -> & ->)|[(-> & -> & ->)|(-> & -> & ->)]]]; tauto. }
    assert (A : accepted px [5; 0; 5; 0] c 0 2 (63, 63)%nat 4 (2 ^ 32)).
    { split; [|split; [|split; [|split; [cbn; lia|split; [cbn; lia|split; [lia|split; [|split; [lia|split; [lia|vm_compute; discriminate]]]]]]]]].
      - split; [reflexivity|]. split; [reflexivity|]. split; [exact Hp|]. split; [|split].
        + intros u v j E. apply Ei in E. split; [cbn; lia|]. destruct E as [(-> & -> & ->)|[(-> & -> & ->)|[(-> & -> & ->)|(-> & -> & ->)]]]; eexists; apply Ei; eauto 8.
        + intros u v j j' E E'. apply Ei in E, E'. lia.
        + repeat constructor; lia.
      - intros u u' v v' j E E'. apply Ei in E, E'. lia.
      - intros u v. split.
        + intros j E. apply Ei in E. destruct E as [(-> & -> & ->)|[(-> & -> & ->)|[(-> & -> & ->)|(-> & -> & ->)]]]; reflexivity.
        + intro H. unfold c. destruct (Nat.eqb_spec u 0), (Nat.eqb_spec v 1), (Nat.eqb_spec u 1), (Nat.eqb_spec v 2); cbn; try reflexivity; exfalso; try lia; subst; [apply (H O)|apply (H 2%nat)]; apply Ei; lia.
      - intros j E. apply Ei in E. cbn in E. lia. }
    destruct (C44_maximum_flow_partial px _ c 0 2 1000 (63, 63)%nat fx_h 4 (2 ^ 32) A ltac:(lia) k r M) as (res & vals' & f & side & -> & F & V & _ & _ & _ & _ & _ & Mx).
    exists vals'. f_equal. f_equal. apply Z.le_antisymm.
    + rewrite <- V. apply (value_le_cut (verts px) c 0 2 f (fun u => (u =? 0)%nat)); auto. cbn; lia.
    + apply (Mx (fun u v => c u v - c v u)). split; [|split].
      * intros u v. lia.
      * intros u v Lu Lv. unfold c. destruct ((v =? 0) && (u =? 1) || (v =? 1) && (u =? 2))%nat; lia.
      * intros u Lu N0 N3. cbn in Lu. destruct u as [|[|[|u]]]; try reflexivity; lia.
Qed.
Print Assumptions C44_overlapping_invocations_miss_the_flow_refuted.

(** Without the transposed entry the first augmentation indexes hashBuffer with -1: matrix with the single edge 0-1. *)
Definition ox : csr := {| ptrs := [0; 1; 1]%nat; cols := [1]%nat |}.
Theorem C44_missing_transposed_entry_refuted : max_run (63, 63)%nat fx_h 4 (2 ^ 32) launch_apart ox [5] 1000 0 1 0 None.
Proof.
  destruct (built ox 6) as [[t buf]|] eqn:T; [|vm_compute in T; discriminate]. apply built_run in T as T'. exists (Some (t, buf)). split; [exact T'|]. clear T'. vm_compute in T. inversion T; subst t buf. exists [7; 7]. split; [reflexivity|].
  eapply (L_crash _ _ launch_apart ox 1000 0 1 _ _ 1 _ _ _ {| visited := [true; true]; frontier := [false; true]; parents := [-1; 0]; pflow := [1000; 5]; found := true |} 5); [|reflexivity|vm_compute; reflexivity].
  eexists. split; [reflexivity|]. split; [|exists 5; auto]. apply F_sink; [reflexivity| |reflexivity]. exists [1; 0]%nat. split; [apply perm_swap|].
  eapply I_cons; [eapply A_step; [discriminate|reflexivity|apply A_done]|]. eapply I_cons; [|apply I_nil]. repeat (eapply A_step; [discriminate|reflexivity|]). apply A_done.
Qed.
Print Assumptions C44_missing_transposed_entry_refuted.
