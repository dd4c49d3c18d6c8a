From Verif Require Import Prelude SortModel SortProofs SpmModel SpmSpec SpmProofs SpmvModel SpmvSpec.

Section S.
Context {V X T : Type}.
Variable sr : semiring V X T.
Variables (dv : V) (dx : X).
Notation csr := (@csr V).
Notation add := (s_add sr).
Notation mul := (s_mul sr).
Notation acc := (s_acc sr).
Notation ident := (s_ident sr).
Implicit Type m : csr.

Definition at_row (i : nat) (ops : list (nat * T)) : list T := map snd (filter (fun o => fst o =? i) ops).
Lemma apply_ok : forall ops out, (forall o, In o ops -> fst o < length out) ->
  exists out', apply_ops sr out ops = Some out' /\ length out' = length out /\
    forall i o, nth_error out i = Some o -> nth_error out' i = Some (fold_left acc (at_row i ops) o).
Proof.
  induction ops as [|[i d] r IH]; intros out H; cbn [apply_ops].
  - exists out. split; [reflexivity|]. split; [reflexivity|]. intros i o Ho. exact Ho.
  - pose proof (H _ (or_introl eq_refl)) as Hi. cbn in Hi. destruct (nth_error_lt_some out i Hi) as [o0 Ho0]. rewrite Ho0. cbn [bind].
    destruct (upd_some out i (acc o0 d) Hi) as [out1 U]. rewrite U. cbn [bind]. pose proof (upd_length _ _ _ _ U) as L.
    destruct (IH out1) as (out' & E & L' & N). { intros o Ho. rewrite L. apply H. right. exact Ho. }
    exists out'. split; [exact E|]. split; [lia|]. intros k o Ho. unfold at_row. cbn [filter fst map snd]. destruct (Nat.eqb_spec i k) as [->|Nk].
    + cbn [map snd fold_left]. rewrite Ho in Ho0. inversion Ho0; subst. apply N. exact (upd_nth_eq _ _ _ _ U).
    + apply N. rewrite (upd_nth_neq _ _ _ _ _ U) by auto. exact Ho.
Qed.
Lemma at_row_perm i a b : Permutation a b -> Permutation (at_row i a) (at_row i b).
Proof.
  intro P. apply Permutation_map. induction P as [|x l l' P IH|x y l|l1 l2 l3 P1 IH1 P2 IH2]; cbn; auto.
  - destruct (fst x =? i); auto.
  - destruct (fst x =? i), (fst y =? i); auto. constructor.
  - etransitivity; eauto.
Qed.
Hypothesis acc_add : forall a b, acc a b = add a b.
Hypothesis comm : forall a b, add a b = add b a.
Hypothesis assoc : forall a b c, add a (add b c) = add (add a b) c.
Lemma fold_left_right l : forall o, fold_left acc l o = fold_right add o l.
Proof.
  induction l as [|x l IH]; intro o; cbn; [reflexivity|]. rewrite IH, acc_add. clear IH. induction l as [|y l IH]; cbn; [apply comm|]. rewrite IH, !assoc. f_equal. apply comm.
Qed.
Lemma fold_perm a b o : Permutation a b -> fold_right add o a = fold_right add o b.
Proof.
  induction 1 as [|x l l' P IH|x y l|l1 l2 l3 P1 IH1 P2 IH2]; cbn; [reflexivity|congruence| |congruence]. rewrite !assoc. f_equal. apply comm.
Qed.
Lemma all_ops_ok f (g : nat -> list (nat * T)) : forall is, (forall i, In i is -> f i = Some (g i)) -> all_ops f is = Some (flat_map g is).
Proof.
  induction is as [|i is IH]; intro H; cbn [all_ops flat_map]; [reflexivity|]. rewrite H by (left; reflexivity). cbn [bind]. rewrite IH by (intros j Hj; apply H; right; exact Hj). reflexivity.
Qed.
Lemma kernel_ok out f g n r : (forall i, i < n -> f i = Some (g i)) -> (forall o, In o (flat_map g (seq 0 n)) -> fst o < length out) -> kernel_run sr out f n r ->
  exists out', r = Some out' /\ length out' = length out /\
    forall i o, nth_error out i = Some o -> nth_error out' i = Some (fold_right add o (at_row i (flat_map g (seq 0 n)))).
Proof.
  intros Hf Ho R. unfold kernel_run in R. rewrite (all_ops_ok f g) in R by (intros i Hi; apply in_seq in Hi; apply Hf; lia). destruct R as (order & P & ->).
  destruct (apply_ok order out) as (out' & E & L & N). { intros o Hin. apply Ho. exact (Permutation_in o P Hin). }
  exists out'. split; [exact E|]. split; [exact L|]. intros i o Hi. rewrite (N i o Hi). f_equal. rewrite fold_left_right. apply fold_perm. apply at_row_perm. exact P.
Qed.
Lemma kernel_total out f n : exists r, kernel_run sr out f n r.
Proof. unfold kernel_run. destruct (all_ops f (seq 0 n)); eexists; [eexists; split; [reflexivity|reflexivity]|reflexivity]. Qed.

(** *** the operations *)
Lemma segment_ok m o : wf_topo m -> o < outer m -> segment m o = Some (seq (nth o (ptrs m) 0) (nth (S o) (ptrs m) 0 - nth o (ptrs m) 0)).
Proof. intros (L & _) Ho. unfold segment. rewrite (nth_error_nth' _ 0) by lia. cbn [bind]. rewrite (nth_error_nth' _ 0) by lia. reflexivity. Qed.
Lemma in_segment m o k : wf_topo m -> o < outer m -> In k (seq (nth o (ptrs m) 0) (nth (S o) (ptrs m) 0 - nth o (ptrs m) 0)) -> k < length (inds m).
Proof. intros W Ho Hk. apply in_seq in Hk. pose proof (ptrs_le m (S o) W ltac:(lia)). lia. Qed.
Definition seg_cells m o : list (nat * nat * nat) := map (fun k => (coord m o (nth k (inds m) 0), k)) (seq (nth o (ptrs m) 0) (nth (S o) (ptrs m) 0 - nth o (ptrs m) 0)).
Definition prod_of m (x : list X) (c : nat * nat * nat) : T := mul (nth (snd c) (vals m) dv) (nth (snd (fst c)) x dx).
Lemma row_sum_ok m x row : wf m -> rm m = true -> length x = ncols m -> row < nrows m -> row_sum sr m x row = Some (fold_right add ident (map (prod_of m x) (seg_cells m row))).
Proof.
  intros [W Lv] R Lx Hr. assert (Ho : row < outer m) by (unfold outer; rewrite R; exact Hr). assert (In_ : inner m = ncols m) by (unfold inner; rewrite R; reflexivity).
  unfold row_sum. rewrite segment_ok by assumption. cbn [bind]. unfold seg_cells. rewrite map_map.
  assert (Hin : forall k, In k (seq (nth row (ptrs m) 0) (nth (S row) (ptrs m) 0 - nth row (ptrs m) 0)) -> k < length (inds m)) by (intro k; apply in_segment; assumption).
  revert Hin. generalize (seq (nth row (ptrs m) 0) (nth (S row) (ptrs m) 0 - nth row (ptrs m) 0)) as ks. intros ks Hin.
  rewrite <- fold_left_right. generalize (s_ident sr) as s. induction ks as [|k ks IH]; intro s; cbn [fold_left map]; [reflexivity|].
  assert (Hk : k < length (inds m)) by (apply Hin; left; reflexivity). pose proof W as (_ & _ & _ & _ & Wi). specialize (Wi k Hk).
  cbn [bind]. rewrite (nth_error_nth' (vals m) dv) by lia. cbn [bind]. rewrite (nth_error_nth' (inds m) 0) by lia. cbn [bind]. rewrite (nth_error_nth' x dx) by lia. cbn [bind].
  rewrite IH by (intros k' Hk'; apply Hin; right; exact Hk'). rewrite <- acc_add. unfold prod_of, coord. rewrite R. reflexivity.
Qed.
Definition mb (masked : nat -> option bool) (r : nat) : bool := match masked r with Some b => b | None => false end.
Lemma row_ops_ok m x masked row : wf m -> rm m = true -> length x = ncols m -> row < nrows m -> (forall r, r < nrows m -> masked r <> None) ->
  row_ops sr m x masked row = Some (if mb masked row then [] else [(row, fold_right add ident (map (prod_of m x) (seg_cells m row)))]).
Proof.
  intros W R Lx Hr Hm. unfold row_ops, mb. specialize (Hm row Hr). destruct (masked row) as [b|]; [|congruence]. cbn [bind]. destruct b; [reflexivity|]. rewrite row_sum_ok by assumption. reflexivity.
Qed.
Lemma col_ops_ok m x masked col : wf m -> rm m = false -> length x = ncols m -> col < ncols m -> (forall r, r < nrows m -> masked r <> None) ->
  col_ops sr m x masked col = Some (map (fun c => (fst (fst c), prod_of m x c)) (filter (fun c => negb (mb masked (fst (fst c)))) (seg_cells m col))).
Proof.
  intros [W Lv] R Lx Hc Hm. assert (Ho : col < outer m) by (unfold outer; rewrite R; exact Hc). assert (In_ : inner m = nrows m) by (unfold inner; rewrite R; reflexivity).
  unfold col_ops. rewrite segment_ok by assumption. cbn [bind]. rewrite (nth_error_nth' x dx) by lia. cbn [bind]. unfold seg_cells.
  assert (Hin : forall k, In k (seq (nth col (ptrs m) 0) (nth (S col) (ptrs m) 0 - nth col (ptrs m) 0)) -> k < length (inds m)) by (intro k; apply in_segment; assumption).
  revert Hin. generalize (seq (nth col (ptrs m) 0) (nth (S col) (ptrs m) 0 - nth col (ptrs m) 0)) as ks.
  induction ks as [|k ks IH]; intro Hin; cbn [col_steps map filter]; [reflexivity|].
  assert (Hk : k < length (inds m)) by (apply Hin; left; reflexivity). pose proof W as (_ & _ & _ & _ & Wi). specialize (Wi k Hk).
  rewrite (nth_error_nth' (inds m) 0) by lia. cbn [bind]. specialize (Hm (nth k (inds m) 0) ltac:(lia)).
  assert (Ec : coord m col (nth k (inds m) 0) = (nth k (inds m) 0, col)) by (unfold coord; rewrite R; reflexivity).
  rewrite Ec. cbn [fst]. unfold mb at 1. destruct (masked (nth k (inds m) 0)) as [b|]; [|congruence]. cbn [bind].
  rewrite (nth_error_nth' (vals m) dv) by lia. cbn [bind]. rewrite IH by (intros k' Hk'; apply Hin; right; exact Hk'). cbn [bind]. destruct b; reflexivity.
Qed.

(** *** the products of a row *)
Lemma cells_seg m : cells m = flat_map (seg_cells m) (seq 0 (outer m)).
Proof. reflexivity. Qed.
Lemma filter_flat_map {A B} (p : B -> bool) (f : A -> list B) l : filter p (flat_map f l) = flat_map (fun x => filter p (f x)) l.
Proof. induction l as [|x l IH]; cbn; [reflexivity|]. rewrite filter_app, IH. reflexivity. Qed.
Lemma flat_map_single {A} (f : nat -> list A) i n : i < n -> (forall j, j <> i -> f j = []) -> flat_map f (seq 0 n) = f i.
Proof.
  intros Hi Hj. replace n with (i + (1 + (n - S i))) by lia. rewrite seq_app, flat_map_app. cbn [Nat.add seq flat_map].
  assert (Z : forall l, ~ In i l -> flat_map f l = []). { induction l as [|x l IH]; intro H; cbn; [reflexivity|]. rewrite Hj by (intro; subst; apply H; left; reflexivity). apply IH. intro; apply H; right; assumption. }
  rewrite !Z; [cbn; apply app_nil_r| |]; rewrite in_seq; lia.
Qed.
Lemma row_cells m i : rm m = true -> i < nrows m -> filter (fun c => fst (fst c) =? i) (cells m) = seg_cells m i.
Proof.
  intros R Hi. rewrite cells_seg, filter_flat_map. unfold outer. rewrite R. rewrite (flat_map_single _ i) by
    (auto; intros j Hj; apply SortProofs.filter_none; intros c Hc; unfold seg_cells in Hc; apply in_map_iff in Hc as (k & <- & _); unfold coord; rewrite R; apply Nat.eqb_neq; exact Hj).
  unfold seg_cells. generalize (seq (nth i (ptrs m) 0) (nth (S i) (ptrs m) 0 - nth i (ptrs m) 0)) as ks. induction ks as [|k ks IH]; cbn [map filter]; [reflexivity|].
  unfold coord at 1. rewrite R. cbn [fst]. rewrite Nat.eqb_refl. f_equal. exact IH.
Qed.
Notation product_at m x i := (product add ident mul dv dx m x i).
Lemma at_rows m x masked i : rm m = true -> i < nrows m ->
  at_row i (flat_map (fun row => if mb masked row then [] else [(row, fold_right add ident (map (prod_of m x) (seg_cells m row)))]) (seq 0 (nrows m)))
  = if mb masked i then [] else [product_at m x i].
Proof.
  intros R Hi. unfold at_row. rewrite filter_flat_map. rewrite (flat_map_single _ i); [|exact Hi|].
  2: { intros j Hj. destruct (mb masked j); cbn; [reflexivity|]. destruct (Nat.eqb_spec j i); [contradiction|reflexivity]. }
  destruct (mb masked i); cbn; [reflexivity|]. rewrite Nat.eqb_refl. cbn. f_equal. unfold product, products. rewrite row_cells by assumption. reflexivity.
Qed.
Lemma flat_map_map' {A B C} (g : B -> C) (f : A -> list B) l : flat_map (fun x => map g (f x)) l = map g (flat_map f l).
Proof. induction l as [|x l IH]; cbn; [reflexivity|]. rewrite map_app, IH. reflexivity. Qed.
Lemma at_cols m x masked i : rm m = false ->
  at_row i (flat_map (fun col => map (fun c => (fst (fst c), prod_of m x c)) (filter (fun c => negb (mb masked (fst (fst c)))) (seg_cells m col))) (seq 0 (ncols m)))
  = if mb masked i then [] else products mul dv dx m x i.
Proof.
  intros R. rewrite flat_map_map', <- filter_flat_map. assert (Eo : ncols m = outer m) by (unfold outer; rewrite R; reflexivity). rewrite Eo, <- cells_seg. unfold at_row, products.
  induction (cells m) as [|c l IH]; cbn [filter map fst]; [destruct (mb masked i); reflexivity|].
  destruct (Nat.eqb_spec (fst (fst c)) i) as [E|E].
  - rewrite E. destruct (mb masked i) eqn:B; cbn [negb]; [exact IH|]. cbn [map filter fst snd]. rewrite E, Nat.eqb_refl. cbn [map snd]. f_equal. exact IH.
  - destruct (mb masked (fst (fst c))); cbn [negb]; [exact IH|]. cbn [map filter fst]. destruct (Nat.eqb_spec (fst (fst c)) i); [contradiction|]. exact IH.
Qed.
Lemma seg_rows m o c : wf_topo m -> o < outer m -> In c (seg_cells m o) -> fst (fst c) < nrows m.
Proof.
  intros W Ho Hc. unfold seg_cells in Hc. apply in_map_iff in Hc as (k & <- & Hk). pose proof (in_segment m o k W Ho Hk) as L. pose proof W as (_ & _ & _ & _ & Wi). specialize (Wi k L).
  unfold coord, outer, inner in *. destruct (rm m); cbn; assumption.
Qed.

(** *** the kernels: updates of a row are its product (row-major) or its products (column-major) *)
Definition updates m x masked i : list T := if mb masked i then [] else if rm m then [product_at m x i] else products mul dv dx m x i.
Lemma run_ok m x masked out r n : wf m -> length x = ncols m -> length out = nrows m -> (forall i, i < nrows m -> masked i <> None) ->
  (if rm m then kernel_run sr out (row_ops sr m x masked) (nrows m) r else kernel_run sr out (col_ops sr m x masked) n r) -> (rm m = false -> n = ncols m) ->
  exists out', r = Some out' /\ length out' = nrows m /\ forall i o, nth_error out i = Some o -> nth_error out' i = Some (fold_right add o (updates m x masked i)).
Proof.
  intros W Lx Lo Hm R Hn. unfold updates. destruct (rm m) eqn:Rm.
  - apply (kernel_ok _ _ (fun row => if mb masked row then [] else [(row, fold_right add ident (map (prod_of m x) (seg_cells m row)))])) in R.
    + destruct R as (out' & E & L & N). exists out'. split; [exact E|]. split; [lia|]. intros i o Hi. rewrite (N i o Hi). pose proof (nth_error_some_lt _ _ _ Hi). rewrite at_rows by (auto; lia). reflexivity.
    + intros i Hi. apply row_ops_ok; assumption.
    + intros o Ho. apply in_flat_map in Ho as (j & Hj & Ho). apply in_seq in Hj. destruct (mb masked j); [destruct Ho|]. destruct Ho as [<-|[]]. cbn. lia.
  - rewrite (Hn eq_refl) in R. apply (kernel_ok _ _ (fun col => map (fun c => (fst (fst c), prod_of m x c)) (filter (fun c => negb (mb masked (fst (fst c)))) (seg_cells m col)))) in R.
    + destruct R as (out' & E & L & N). exists out'. split; [exact E|]. split; [lia|]. intros i o Hi. rewrite (N i o Hi). rewrite at_cols by assumption. reflexivity.
    + intros i Hi. apply col_ops_ok; assumption.
    + intros o Ho. apply in_flat_map in Ho as (j & Hj & Ho). apply in_seq in Hj. apply in_map_iff in Ho as (c & <- & Hc). apply filter_In in Hc as [Hc _]. cbn. rewrite Lo. eapply seg_rows; [apply W| |exact Hc]. unfold outer. rewrite Rm. lia.
Qed.
Lemma classic_ok m x out r : (forall a, add ident a = a) -> wf m -> length x = ncols m -> length out = nrows m -> spmv_classic_run sr m x out r ->
  exists out', r = Some out' /\ length out' = nrows m /\ forall i o, nth_error out i = Some o -> nth_error out' i = Some (add o (product_at m x i)).
Proof.
  intros Id W Lx Lo R. destruct (run_ok m x no_mask out r (ncols m) W Lx Lo) as (out' & E & L & N); [discriminate|unfold spmv_classic_run in R; destruct (rm m); exact R|reflexivity|].
  exists out'. split; [exact E|]. split; [exact L|]. intros i o Hi. rewrite (N i o Hi). f_equal. unfold updates, mb, no_mask. destruct (rm m); cbn [fold_right]; [apply comm|].
  unfold product. generalize (products mul dv dx m x i) as l. induction l as [|y l IH]; cbn; [symmetry; rewrite comm; apply Id|]. rewrite IH, !assoc. f_equal. apply comm.
Qed.
Lemma spmv_common m x masked (out : list T) r n : add ident ident = ident -> wf m -> length x = ncols m -> length out = nrows m -> (forall i, i < nrows m -> masked i <> None) ->
  (if rm m then kernel_run sr (map (fun _ => ident) out) (row_ops sr m x masked) (nrows m) r else kernel_run sr (map (fun _ => ident) out) (col_ops sr m x masked) n r) -> (rm m = false -> n = ncols m) ->
  exists out', r = Some out' /\ length out' = nrows m /\ forall i, i < nrows m -> nth_error out' i = Some (if mb masked i then ident else product_at m x i).
Proof.
  intros Id W Lx Lo Hm R Hn. destruct (run_ok m x masked (map (fun _ => ident) out) r n W Lx) as (out' & E & L & N); [rewrite map_length; exact Lo|exact Hm|exact R|exact Hn|].
  exists out'. split; [exact E|]. split; [exact L|]. intros i Hi. destruct (nth_error_lt_some out i) as [o Ho]; [lia|]. rewrite (N i ident) by (rewrite nth_error_map, Ho; reflexivity). f_equal.
  unfold updates. destruct (mb masked i); [reflexivity|]. destruct (rm m); [|reflexivity]. cbn [fold_right]. unfold product. generalize (products mul dv dx m x i) as l. induction l as [|y l IH]; cbn; [exact Id|].
  rewrite <- assoc, IH. reflexivity.
Qed.
Lemma spmv_ok m x out r : add ident ident = ident -> wf m -> length x = ncols m -> length out = nrows m -> rm m = true \/ nrows m = ncols m -> spmv_run sr m x out r ->
  exists out', r = Some out' /\ length out' = nrows m /\ forall i, i < nrows m -> nth_error out' i = Some (product_at m x i).
Proof.
  intros Id W Lx Lo Sq R. destruct (spmv_common m x no_mask out r (nrows m) Id W Lx Lo) as (out' & E & L & N); [discriminate|unfold spmv_run in R; destruct (rm m); exact R|intro Q; destruct Sq; congruence|].
  exists out'. split; [exact E|]. split; [exact L|]. exact N.
Qed.
Lemma spmv_mask_ok m x mask out r : add ident ident = ident -> wf m -> length x = ncols m -> length out = nrows m -> length mask = nrows m -> spmv_mask_run sr m x mask out r ->
  exists out', r = Some out' /\ length out' = nrows m /\ forall i b, nth_error mask i = Some b -> nth_error out' i = Some (if b then ident else product_at m x i).
Proof.
  intros Id W Lx Lo Lm R. destruct (spmv_common m x (fun r => nth_error mask r) out r (ncols m) Id W Lx Lo) as (out' & E & L & N).
  - intros i Hi Q. apply nth_error_None in Q. lia.
  - unfold spmv_mask_run in R. destruct (rm m); exact R.
  - reflexivity.
  - exists out'. split; [exact E|]. split; [exact L|]. intros i b Hb. rewrite N by (rewrite <- Lm; eapply nth_error_some_lt; eauto). unfold mb. rewrite Hb. reflexivity.
Qed.
End S.

(** column-major spmv of a wide matrix: the columns from nrows on are ignored *)
Lemma spmv_wide : exists (m : @csr Z) x out, wf m /\ unique m /\ length x = ncols m /\ length out = nrows m /\
  exists r, spmv_run plus_times m x out (Some r) /\ nth_error r 0 <> Some (product Z.add 0%Z Z.mul 0%Z 0%Z m x 0).
Proof.
  exists {| rm := false; nrows := 1; ncols := 2; ptrs := [0; 1; 2]; inds := [0; 0]; vals := [1; 1]%Z |}, [1; 1]%Z, [0]%Z.
  split. { repeat split; cbn; try lia. - intros o Ho. destruct o as [|[|]]; cbn; lia. - intros k Hk. destruct k as [|[|]]; cbn; lia. }
  split. { intros i j k k' A B. apply stored_at in A, B. cbn in *. destruct A as (A1 & A2 & A3), B as (B1 & B2 & B3). destruct j as [|[|]]; cbn in *; lia. }
  split; [reflexivity|]. split; [reflexivity|]. exists [1%Z]. split; [|cbn; discriminate]. unfold spmv_run. cbn. eexists. split; [reflexivity|reflexivity].
Qed.
(** column-major spmv of a tall matrix reads outside the pointers *)
Lemma spmv_tall {V X T} (sr : semiring V X T) m x out r : wf m -> rm m = false -> ncols m < nrows m -> spmv_run sr m x out r -> r = None.
Proof.
  intros [(L & _) _] R H. unfold spmv_run, kernel_run. rewrite R. assert (F : col_ops sr m x no_mask (ncols m) = None).
  { unfold col_ops, segment. unfold outer in L. rewrite R in L. rewrite (proj2 (nth_error_None (ptrs m) (S (ncols m)))) by lia. destruct (nth_error (ptrs m) (ncols m)); reflexivity. }
  assert (G : forall is, In (ncols m) is -> all_ops (col_ops sr m x no_mask) is = None).
  { induction is as [|i is IH]; intro Hi; [destruct Hi|]. cbn [all_ops]. destruct Hi as [->|Hi]; [rewrite F; reflexivity|]. rewrite IH by exact Hi. destruct (col_ops sr m x no_mask i); reflexivity. }
  rewrite G by (apply in_seq; lia). auto.
Qed.
