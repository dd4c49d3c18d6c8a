(** C32: SpatialHash reports the primitives that share a cell. *)
From Verif Require Import Prelude CollapseModel SortModel CountModel BhtModel BhtSpec BhtProofs5 BhtProps ShModel ShSpec ShProofs ShProofs2.
Local Open Scope Z_scope.

(** After build, under any schedule of its kernels: the number of active cells is the number of cells covered by some primitive, and a
    box query reports primitive i exactly as many times as there are cells covered both by the box and by primitive i; nothing else is
    reported, no access is out of bounds and every execution of the query gives such an answer.  The cells are those of [covers]: a box is
    open at its upper faces. *)
Theorem C32_box_query_reports_shared_cells : forall sent h B W, (3 <= B)%nat -> 64 <= W -> forall d dx s prims r,
  (0 < d)%nat -> 0 < dx -> prims <> [] -> Forall (box_ok d) prims -> (forall b, In b prims -> ~ covers dx b sent) -> build_run sent h B W s dx prims r ->
  exists s', r = Some s' /\
  (exists cells, NoDup cells /\ (forall c, In c cells <-> exists b, In b prims /\ covers dx b c) /\ BhtModel.cnt (stab s') = length cells) /\
  forall q, box_ok d q -> ~ covers dx q sent ->
    (exists res, iter_box h B s' q res) /\
    forall res, iter_box h B s' q res -> exists out, res = Some out /\
      (forall i, In i out -> (i < length prims)%nat) /\
      forall i b, nth_error prims i = Some b -> exists shared, NoDup shared /\ (forall c, In c shared <-> covers dx q c /\ covers dx b c) /\
        count_occ Nat.eq_dec out i = length shared.
Proof.
  intros sent h B W HB HW d dx s prims r Hd Hdx Np Ok Ns Bu.
  destruct (build_ok sent h B W HB HW d dx s prims r Hd Hdx Np Ok Bu Ns) as (s' & -> & Ex & Act & Rep).
  exists s'. split; [reflexivity|]. split; [exact Act|]. intros q Oq Nq.
  destruct (cells_ok dx Hdx d q Hd Oq) as (l & Rl & Ul & Nl & Il). split; [exists (reports h B s' l); exists l; split; [rewrite Ex; exact Rl|reflexivity]|].
  intros res (l' & Rl' & ->). rewrite Ex in Rl'. rewrite (Ul l' Rl').
  destruct (reports_ok sent h B W HB HW dx prims s' Rep l) as (out & Eo & No & Co); [intro X; apply Nq; apply Il; exact X|].
  exists out. split; [exact Eo|]. split.
  - intros i I. destruct (nth_error prims i) eqn:E; [eapply nth_error_some_lt; eauto|exfalso; eapply No; eauto].
  - intros i b Eb. rewrite Forall_forall in Ok. destruct (cells_ok dx Hdx d b Hd (Ok b (nth_error_In _ _ Eb))) as (lb & _ & _ & _ & Ib).
    set (p := fun c => if in_dec ceq c lb then true else false).
    assert (Hp : forall c, p c = true <-> covers dx b c) by (intro c; unfold p; rewrite <- Ib; destruct (in_dec ceq c lb); split; auto; discriminate).
    exists (filter p l). split; [apply NoDup_filter; exact Nl|]. split; [intro c; rewrite filter_In, Hp, Il; reflexivity|]. exact (Co i b Eb p Hp).
Qed.
Print Assumptions C32_box_query_reports_shared_cells.

Lemma overlap_cell dx a b : 0 < dx -> forall d, (0 < d)%nat -> box_ok d a -> box_ok d b -> overlapping a b -> exists c, covers dx a c /\ covers dx b c.
Proof.
  intros Hdx d Hd (A1 & A2 & _) (B1 & B2 & _) O. destruct a as [am aM], b as [bm bM]. unfold overlapping in O. cbn [fst snd] in *.
  assert (M : forall m M m' M', m < M' -> m' < M -> m < M -> m' < M' -> meets dx m M (Z.max m m' / dx) /\ meets dx m' M' (Z.max m m' / dx)).
  { intros m M m' M' H1 H2 H3 H4. unfold meets. pose proof (Z.div_mod (Z.max m m') dx ltac:(lia)). pose proof (Z.mod_pos_bound (Z.max m m') dx Hdx). repeat split; nia. }
  assert (G : forall d am aM bm bM, length am = d -> length aM = d -> length bm = d -> length bM = d ->
    Forall2 (fun p q => fst p < snd q /\ fst q < snd p /\ fst p < snd p /\ fst q < snd q) (combine am aM) (combine bm bM) ->
    exists c, Forall2 (fun p x => meets' dx (fst p) (snd p) x) (combine am aM) c /\ Forall2 (fun p x => meets' dx (fst p) (snd p) x) (combine bm bM) c).
  { clear - M. induction d as [|d IH]; intros am aM bm bM L1 L2 L3 L4 F; destruct am, aM, bm, bM; try discriminate; cbn [combine] in *; [exists []; split; constructor|].
    inversion F as [|? ? ? ? P Ps]; subst. destruct (IH am aM bm bM) as (c & C1 & C2); auto. cbn [fst snd] in P. destruct P as (P1 & P2 & P3 & P4).
    destruct (M _ _ _ _ P1 P2 P3 P4) as (M1 & M2). eexists. split; constructor; try exact C1; try exact C2; left; eauto. }
  destruct d as [|d]; [lia|]. destruct am as [|m am], aM as [|x aM], bm as [|m' bm], bM as [|x' bM]; try discriminate. cbn [combine length] in *.
  inversion O as [|? ? ? ? P Ps]; subst. cbn [fst snd] in P. destruct P as (P1 & P2 & P3 & P4). destruct (M _ _ _ _ P1 P2 P3 P4) as (M1 & M2).
  destruct (G d am aM bm bM) as (c & C1 & C2); try lia; auto. eexists. split; constructor; eauto; lia.
Qed.
(** In particular every primitive whose box has an open set in common with the query box is reported.  Partial: boxes that only touch, or
    are flat, may be missed (see below). *)
Theorem C32_overlapping_boxes_are_reported_partial : forall sent h B W, (3 <= B)%nat -> 64 <= W -> forall d dx s prims s' q out,
  (0 < d)%nat -> 0 < dx -> Forall (box_ok d) prims -> box_ok d q -> (forall b, In b prims -> ~ covers dx b sent) -> ~ covers dx q sent ->
  build_run sent h B W s dx prims (Some s') -> iter_box h B s' q (Some out) ->
  forall i b, nth_error prims i = Some b -> overlapping q b -> In i out.
Proof.
  intros sent h B W HB HW d dx s prims s' q out Hd Hdx Ok Oq Ns Nq Bu It i b Eb Ov.
  assert (Np : prims <> []) by (intros ->; destruct i; discriminate).
  destruct (C32_box_query_reports_shared_cells sent h B W HB HW d dx s prims _ Hd Hdx Np Ok Ns Bu) as (s2 & E & _ & Q). inversion E; subst s2.
  destruct (Q q Oq Nq) as (_ & Q'). destruct (Q' _ It) as (out' & E' & _ & C). inversion E'; subst out'. destruct (C i b Eb) as (L & _ & I & Ct).
  apply (count_occ_In Nat.eq_dec). rewrite Ct. rewrite Forall_forall in Ok. destruct (overlap_cell dx q b Hdx d Hd Oq (Ok b (nth_error_In _ _ Eb)) Ov) as (c & Cc).
  apply I in Cc. destruct L; [destruct Cc|cbn; lia].
Qed.
Print Assumptions C32_overlapping_boxes_are_reported_partial.

Lemma cell_of_floor dx p : 0 < dx -> cell_of dx p (map (cfloor dx) p).
Proof. intro H. induction p as [|x p IH]; cbn; constructor; auto. unfold cfloor. pose proof (Z.div_mod x dx ltac:(lia)). pose proof (Z.mod_pos_bound x dx H). nia. Qed.
Lemma inside_covers dx p bv c d : (0 < d)%nat -> box_ok d bv -> cell_of dx p c -> inside p bv -> covers dx bv c.
Proof.
  intros Hd (A & B & _) C In. destruct bv as [mi ma]. unfold inside in In. cbn [fst snd] in *. destruct d as [|d]; [lia|]. destruct mi as [|m mi], ma as [|M ma]; try discriminate. cbn [combine length] in *.
  inversion In as [|x q ps qs P Ps]; subst. inversion C as [|? k ? ks K Ks]; subst. cbn [fst snd] in P. constructor; [unfold meets; lia| |lia].
  clear - Ps Ks. revert ks Ks. induction Ps; intros ks Ks; inversion Ks; subst; constructor; auto. left. unfold meets. lia.
Qed.
(** A point query reports each primitive that covers the cell of the point once and nothing else, so it reports every primitive whose box
    contains the point, upper faces excluded.  Partial: points on an upper face may be missed (see below). *)
Theorem C32_point_query_partial : forall sent h B W, (3 <= B)%nat -> 64 <= W -> forall d dx s prims s',
  (0 < d)%nat -> 0 < dx -> prims <> [] -> Forall (box_ok d) prims -> (forall b, In b prims -> ~ covers dx b sent) ->
  build_run sent h B W s dx prims (Some s') -> forall p, ~ cell_of dx p sent ->
  exists out, iter_point h B s' p = Some out /\ NoDup out /\
    (forall i, In i out <-> exists b c, nth_error prims i = Some b /\ cell_of dx p c /\ covers dx b c) /\
    (forall i b, nth_error prims i = Some b -> inside p b -> In i out).
Proof.
  intros sent h B W HB HW d dx s prims s' Hd Hdx Np Ok Ns Bu p Np'.
  destruct (build_ok sent h B W HB HW d dx s prims _ Hd Hdx Np Ok Bu Ns) as (s2 & E & Ex & Act & Rep). inversion E; subst s2.
  pose proof (cell_of_floor dx p Hdx) as Cp. unfold iter_point. rewrite Ex. destruct (Rep (map (cfloor dx) p)) as (out & Eo & T); [intro X; apply Np'; rewrite <- X; exact Cp|].
  assert (U : forall c, cell_of dx p c -> c = map (cfloor dx) p).
  { clear - Hdx. induction p as [|x p IH]; intros c C; inversion C; subst; [reflexivity|]. cbn. f_equal; [|auto]. unfold cfloor. apply (Z.div_unique_pos x dx y (x - y * dx)); lia. }
  assert (I : forall i, In i out <-> exists b, nth_error prims i = Some b /\ covers dx b (map (cfloor dx) p)).
  { intro i. rewrite (count_occ_In Nat.eq_dec). destruct (T i) as [T1 T0]. split.
    - intro G. destruct (nth_error prims i) as [b|] eqn:Eb; [|rewrite T0 in G; [lia|intros b0 Eb0 _; congruence]]. exists b. split; [reflexivity|].
      rewrite Forall_forall in Ok. destruct (cells_ok dx Hdx d b Hd (Ok b (nth_error_In _ _ Eb))) as (lb & _ & _ & _ & Ib). apply Ib.
      destruct (in_dec ceq (map (cfloor dx) p) lb) as [Q|Q]; [exact Q|]. exfalso. rewrite T0 in G; [lia|]. intros b' Eb' C. apply Q. apply Ib. congruence.
    - intros (b & Eb & C). rewrite (T1 b Eb C). lia. }
  exists out. split; [exact Eo|]. split; [|split].
  - apply (NoDup_count_occ Nat.eq_dec). intro i. destruct (T i) as [T1 T0]. destruct (in_dec Nat.eq_dec i out) as [Q|Q]; [apply I in Q as (b & Eb & C); rewrite (T1 b Eb C); lia|].
    apply (count_occ_not_In Nat.eq_dec) in Q. lia.
  - intro i. rewrite I. split; [intros (b & Eb & C); exists b, (map (cfloor dx) p); auto|]. intros (b & c & Eb & Cc & C). rewrite (U c Cc) in C. eauto.
  - intros i b Eb In. apply I. exists b. split; [exact Eb|]. rewrite Forall_forall in Ok. eapply inside_covers; eauto. apply Ok. eapply nth_error_In; eauto.
Qed.
Print Assumptions C32_point_query_partial.

(** Concrete builds: buckets of 4 slots, a table for the number of primitives, all insertions by one thread. *)
Definition xsent : cell := [63; 63].
Definition xh (it : nat) (c : cell) : nat := Z.to_nat (fold_right (fun x a => Z.abs x + 3 * a) 0 c).
Definition xtab (n : nat) : @table cell := {| keys := repeat xsent n; inds := repeat 0 n; BhtModel.cnt := 0%nat; act := repeat [] n; succ := true; tsize := n |}.
Definition xempty (dx : Z) : sh := {| sdx := dx; stab := xtab 0; sinds := []; soffs := [] |}.
Definition xplace (nc : nat) (its : list (nat * nat)) : option (list nat * list nat) :=
  bind (tickets fst (repeat O (S nc)) its) (fun '(cs, _) => bind (nth_error (escan 0 cs) nc) (fun ne => bind (downs cs its) (fun ts => bind (targets fst (escan 0 cs) ts) (fun ws =>
  bind (run_stores (repeat O ne) (map (fun w => (fst w, snd (snd w))) ws)) (fun inds => Some (escan 0 cs, inds)))))).
Definition xbuild (n : nat) (dx : Z) (e : nat) (css : list (list cell)) : option sh :=
  match exec ceq xsent xh 4 (2 ^ 32) (repeat O n) (start (xtab (table_size 4 e)) [map plain (concat css)]) with
  | None => None
  | Some s => if forallb (fun th => match cur th, todo th with None, [] => true | _, _ => false end) (threads s) && succ (tab s) && (tsize (tab s) <? 100)%nat then
      bind (resolve xh 4 (tab s) (items css)) (fun its => bind (xplace (BhtModel.cnt (tab s)) its) (fun '(offs, inds) => Some {| sdx := dx; stab := tab s; sinds := inds; soffs := offs |}))
    else None
  end.
Lemma xbuild_run n dx e css prims s0 s : (0 < e)%nat -> prims <> [] -> Forall2 (cells_run dx) prims css -> xbuild n dx e css = Some s -> build_run xsent xh 4 (2 ^ 32) s0 dx prims (Some s).
Proof.
  intros He Np F E. right. split; [exact Np|]. unfold xbuild in E. destruct (exec _ _ _ _ _ _ _) as [st|] eqn:X; [|discriminate]. apply exec_steps in X.
  destruct (forallb _ _ && _ && _) eqn:C; [|discriminate]. apply andb_prop in C as [C1 C2]. apply andb_prop in C1 as [C0 C1].
  destruct (resolve xh 4 (tab st) (items css)) as [its|] eqn:Er; [|discriminate]. cbn [bind] in E. destruct (xplace _ its) as [[offs inds]|] eqn:P; [|discriminate]. cbn [bind] in E.
  exists css, (tab st). split; [exact F|]. split.
  - exists (xtab (table_size 4 e)). split.
    + apply T_first with e; [exact He|]. unfold fresh, xtab. cbn [tsize keys BhtModel.inds act BhtModel.cnt succ]. rewrite !repeat_length. auto 7.
    + split; [|split; [exact C1|lia]]. exists [concat css], (length (repeat O n)), st. split; [cbn; rewrite app_nil_r; reflexivity|]. split; [exact X|]. split; [|reflexivity].
      intros th Th. rewrite forallb_forall in C0. specialize (C0 th Th). destruct (cur th); [discriminate|]. destruct (todo th); [auto|discriminate].
  - rewrite Er. exists (Some (offs, inds)). split; [|rewrite <- E; reflexivity]. exists its, its. unfold xplace in P.
    destruct (tickets fst _ its) as [[cs ts]|] eqn:E1; [|discriminate]. cbn [bind] in P. destruct (nth_error (escan 0 cs) _) as [ne|] eqn:E2; [|discriminate]. cbn [bind] in P.
    destruct (downs cs its) as [ds|] eqn:E3; [|discriminate]. cbn [bind] in P. destruct (targets fst (escan 0 cs) ds) as [ws|] eqn:E4; [|discriminate]. cbn [bind] in P.
    exists (map (fun w => (fst w, snd (snd w))) ws), (repeat O ne). split; [reflexivity|]. split; [reflexivity|]. try rewrite E1; cbn [bind]. try rewrite E2; cbn [bind]. try rewrite E3; cbn [bind].
    try rewrite E4; cbn [bind]. split; [apply repeat_length|]. split; [reflexivity|]. destruct (run_stores (repeat O ne) _) as [i|]; [|discriminate]. cbn [bind] in *. inversion P; reflexivity.
Qed.
(** two boxes of the plane on a grid of side 2; the second one covers cells (1,0) and (1,1), the first one (0,0) and (1,0) *)
Definition xprims : list box := [([0; 0], [3; 2]); ([2; 0], [4; 4])].
Definition xcss : list (list cell) := [[[0; 0]; [1; 0]]; [[1; 0]; [1; 1]]].
Example C32_case : Forall (box_ok 2) xprims /\ (forall b, In b xprims -> ~ covers 2 b xsent) /\
  exists s', build_run xsent xh 4 (2 ^ 32) (xempty 1) 2 xprims (Some s') /\
    (exists out, iter_box xh 4 s' ([1; 1], [4; 2]) (Some out) /\ Permutation out [0; 0; 1]%nat) /\ iter_point xh 4 s' [2; 3] = Some [1%nat].
Proof.
  split; [repeat constructor; cbn; lia|].
  split; [intros b [<-|[<-|[]]] C; inversion C; unfold meets in *; lia|].
  destruct (xbuild 21 2 2 xcss) as [s'|] eqn:E; [|vm_compute in E; discriminate]. exists s'. split.
  - apply (xbuild_run 21 2 2 xcss); [lia|discriminate| |exact E].
    constructor; [exists 10%nat, [[0; 0]; [1; 0]]; split; reflexivity|]. constructor; [exists 10%nat, [[0; 0]; [0; 1]]; split; reflexivity|constructor].
  - vm_compute in E. inversion E; subst s'. clear E. split; [|reflexivity].
    eexists. split; [exists [[0; 0]; [1; 0]]; split; [exists 10%nat, [[0; 0]; [1; 0]]; split; reflexivity|vm_compute; reflexivity]|].
    first [apply Permutation_refl | apply perm_skip; apply perm_swap].
Qed.

(** C32 for points on the upper face of a box: the box from 0 to 2 is not reported for the point 2 when 2 is a grid line. *)
Theorem C32_point_on_upper_face_refuted : exists s' b p, box_ok 1 b /\ within p b /\ build_run xsent xh 4 (2 ^ 32) (xempty 1) 2 [b] (Some s') /\ iter_point xh 4 s' p = Some [].
Proof.
  destruct (xbuild 6 2 1 [[[0]]]) as [s'|] eqn:E; [|vm_compute in E; discriminate]. exists s', ([0], [2]), [2].
  split; [repeat constructor; cbn; lia|]. split; [repeat constructor; cbn; lia|]. split.
  - apply (xbuild_run 6 2 1 [[[0]]]); [lia|discriminate| |exact E]. constructor; [exists 10%nat, [[0]]; split; reflexivity|constructor].
  - vm_compute in E. inversion E; subst s'. reflexivity.
Qed.
Print Assumptions C32_point_on_upper_face_refuted.
(** C32 for flat boxes: a box that is a point on a grid line of the first dimension is not reported for a box around it. *)
Theorem C32_flat_box_refuted : exists s' b q, box_ok 1 b /\ box_ok 1 q /\ within (fst b) q /\ within (snd b) q /\ fst q <> snd q /\
  build_run xsent xh 4 (2 ^ 32) (xempty 1) 2 [b] (Some s') /\ iter_box xh 4 s' q (Some []).
Proof.
  destruct (xbuild 0 2 1 [[]]) as [s'|] eqn:E; [|vm_compute in E; discriminate]. exists s', ([2], [2]), ([1], [3]).
  split; [repeat constructor; cbn; lia|]. split; [repeat constructor; cbn; lia|]. split; [repeat constructor; cbn; lia|]. split; [repeat constructor; cbn; lia|]. split; [discriminate|]. split.
  - apply (xbuild_run 0 2 1 [[]]); [lia|discriminate| |exact E]. constructor; [exists 10%nat, []; split; reflexivity|constructor].
  - vm_compute in E. inversion E; subst s'. exists [[0]; [1]]. split; [exists 10%nat, [[0]; [1]]; split; reflexivity|reflexivity].
Qed.
Print Assumptions C32_flat_box_refuted.
(** C32 for an empty input: build with no primitives leaves the previous table in place, and queries go on reporting the old primitives,
    at places that depend on the new cell size. *)
Theorem C32_empty_build_refuted : exists s1 s2, build_run xsent xh 4 (2 ^ 32) (xempty 1) 2 [([0], [2])] (Some s1) /\ build_run xsent xh 4 (2 ^ 32) s1 5 [] (Some s2) /\
  iter_point xh 4 s2 [4] = Some [0%nat].
Proof.
  destruct (xbuild 6 2 1 [[[0]]]) as [s'|] eqn:E; [|vm_compute in E; discriminate]. exists s'. eexists. split.
  - apply (xbuild_run 6 2 1 [[[0]]]); [lia|discriminate| |exact E]. constructor; [exists 10%nat, [[0]]; split; reflexivity|constructor].
  - split; [left; split; reflexivity|]. vm_compute in E. inversion E; subst s'. reflexivity.
Qed.
Print Assumptions C32_empty_build_refuted.
