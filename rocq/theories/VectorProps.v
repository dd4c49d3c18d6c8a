(** C10: Vector behaves as a finite sequence. *)
From Verif Require Import Prelude VectorModel VectorSpec VectorProofs.

(** Any history over any number of vectors (resize, alignedResize, resize with fill, clear, reset, element store, push_back,
    append — also to itself —, copy, clone, move, swap): sizes and specified elements are those of the list specification,
    size() <= capacity(), and no access leaves an allocation (the run is not None). *)
Theorem C10_vector_is_sequence : forall (A : Type) (os : list (vop A)), ops_ok (fun _ => []) os ->
  exists e, vrun (fun _ => v_ctor 0) os = Some e /\
  forall x, let spec := srun (fun _ => @nil (option A)) os x in
    vsize (e x) = length spec /\ vsize (e x) <= capacity (e x) /\
    forall i s, nth_error spec i = Some s -> exists y, load (e x) i = Some y /\ agrees s y.
Proof. exact @vector_sequence. Qed.
Print Assumptions C10_vector_is_sequence.

(** reorder by a permutation, whatever order the policy runs the bodies in: the elements go where the map says. *)
Theorem C10_reorder_elements_partial : forall (A : Type) scatter (v : vec A) map sched,
  vsize v <= capacity v -> length map = vsize v -> Permutation map (seq 0 (vsize v)) -> Permutation sched (seq 0 (vsize v)) ->
  exists w, reorder scatter v map sched = Done (Some w) /\ vsize w = capacity v /\ capacity w = capacity v /\
   forall i j, nth_error map i = Some j -> if scatter then load w j = load v i else load w i = load v j.
Proof. exact @reorder_ok. Qed.
Print Assumptions C10_reorder_elements_partial.
Theorem C10_reorder_size_mismatch_throws : forall (A : Type) scatter (v : vec A) map sched,
  length map <> vsize v -> reorder scatter v map sched = Threw.
Proof. exact @reorder_throws. Qed.
Print Assumptions C10_reorder_size_mismatch_throws.

(** reorder changes size(): the replacement is constructed with capacity() elements. *)
Theorem C10_reorder_keeps_size_refuted : exists e : env nat, exists w,
  vrun (fun _ => v_ctor 0) [OPush 0 7; OPush 0 8; OPush 0 9; OResize 0 1] = Some e /\ vsize (e 0) = 1 /\
  reorder false (e 0) [0] [0] = Done (Some w) /\ vsize w = 3.
Proof. do 2 eexists. split; [reflexivity|]. split; [reflexivity|]. split; reflexivity. Qed.
Print Assumptions C10_reorder_keeps_size_refuted.
(** v.push_back(v[0]) reads freed storage when it reallocates. *)
Theorem C10_push_back_own_element_refuted : exists e : env nat,
  vrun (fun _ => v_ctor 0) [OPush 0 7] = Some e /\ push_back_self (e 0) 0 = None.
Proof. eexists. split; reflexivity. Qed.
Print Assumptions C10_push_back_own_element_refuted.

(** A growing alignedResize allocates a multiple of the alignment, at most one alignment step above what resize would allocate. *)
Theorem C10_aligned_resize_capacity : forall (A : Type) (v w : vec A) n al, al <> 0 -> vsize v <= capacity v -> capacity v < n -> alignedResize v n al = Some w ->
  vsize w = n /\ capacity w mod al = 0 /\ n <= capacity w /\ capacity w < Nat.max n (capacity v + capacity v / 2) + al.
Proof.
  intros A v w n al Ha Hs Hc E. unfold alignedResize in E. replace (n <? vsize v) with false in E by lia. replace (vsize v <? n) with true in E by lia. replace (capacity v <? n) with true in E by lia.
  replace (al =? 0) with false in E by lia. cbv zeta in E. unfold realloc in E. set (c := growth n (capacity v)) in *. set (r := c mod al) in *.
  destruct (copy_n (cells v) (repeat None (c + (if r =? 0 then 0 else al - r))) 0 0 (vsize v)) as [l|] eqn:El; [|discriminate]. injection E as <-.
  assert (Hg : n <= c /\ c <= Nat.max n (capacity v + capacity v / 2)) by (unfold c, growth; destruct (Nat.ltb_spec (capacity v + capacity v / 2) n); lia).
  assert (Hl : forall (src dst : list (option A)) k a b l, copy_n src dst a b k = Some l -> length l = length dst).
  { clear. intros src dst k a b l H. revert dst a b H. induction k as [|k IH]; intros dst a b H; cbn [copy_n] in H; [congruence|]. destruct (nth_error src a); [|discriminate].
    destruct (upd dst b o) as [dst'|] eqn:Eu; [|discriminate]. rewrite (IH _ _ _ H). eapply upd_length. exact Eu. }
  apply Hl in El. rewrite repeat_length in El. unfold capacity in *. cbn [vsize cells]. rewrite El. clear El Hl. pose proof (Nat.div_mod c al Ha) as D. pose proof (Nat.mod_upper_bound c al Ha) as Mb. fold r in D, Mb.
  split; [reflexivity|]. destruct (Nat.eqb_spec r 0) as [e|e].
  - rewrite Nat.add_0_r. fold r. lia.
  - split; [|lia]. replace (c + (al - r)) with ((c / al + 1) * al) by lia. apply Nat.mod_mul. exact Ha.
Qed.
Print Assumptions C10_aligned_resize_capacity.
Example C10_aligned_case : exists w, alignedResize (mkvec [Some 1; Some 2; Some 3] 3) 5 4 = Some w /\ capacity w = 8 /\ vsize w = 5.
Proof. eexists. split; [reflexivity|]. split; reflexivity. Qed.

Example C10_case : ops_ok (fun _ => []) [OPush 0 7; OAppend 0 0; OAppend 0 0; OCopy 1 0; OSet 1 2 9; OMove 2 0; OResizeFill 2 6 4; OResize 1 1]
  /\ srun (fun _ => []) [OPush 0 7; OAppend 0 0; OAppend 0 0; OCopy 1 0; OSet 1 2 9; OMove 2 0; OResizeFill 2 6 4; OResize 1 1] 2
     = [Some 7; Some 7; Some 7; Some 7; Some 4; Some 4].
Proof. cbn. repeat split; lia. Qed.
