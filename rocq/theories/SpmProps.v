(** C38-C41: SparseMatrix construction, transposition, lookup and matrix-vector products. *)
From Coq Require Import QArith.
From Verif Require Import Prelude SortModel CountModel SpmModel SpmSpec SpmProofs SpmBuildModel SpmBuildProofs SpmTransProofs SpmvModel SpmvSpec SpmvProofs.
Open Scope nat_scope.

(** *** C38 *)
(** build from triplets: it always completes without an access outside an array; ptrs ascends from 0 to nnz, every coordinate of a
    triplet is stored exactly once and nothing else is, and its value is the sum of the values of the triplets there *)
Theorem C38_build_sums_duplicates : forall (V : Type) (row_major : bool) (add : V -> V -> V) (zero : V) (nr nc : nat) (trip : list (nat * nat * V)),
  (forall a b, add a b = add b a) -> (forall a b c, add a (add b c) = add (add a b) c) ->
  (forall t, In t trip -> fits nr nc (fst t)) ->
  (exists r, build_run row_major add zero nr nc trip r) /\
  forall r, build_run row_major add zero nr nc trip r ->
  exists m, r = Some m /\ rm m = row_major /\ nrows m = nr /\ ncols m = nc /\ wf m /\ unique m /\
    (forall i j, (exists k, stored m i j k) <-> In (i, j) (map fst trip)) /\
    (forall i j, i < nr -> j < nc -> get zero m i j = Some (sum_at add zero trip i j)).
Proof.
  intros V rmj add zero nr nc trip Cm As H. split; [apply build_total; exact H|]. intros r R.
  destruct (build_ok rmj nr nc add zero Cm As trip r H R) as (m & E & Rm & Nr & Nc & W & U & St & Vl).
  exists m. repeat (split; [assumption|]). intros i j Hi Hj. destruct (get_ok zero m i j W) as (v & G & C); [lia|lia|]. rewrite G. f_equal. destruct C as [(k & Hk & Hv)|[No ->]].
  - rewrite (Vl i j k Hk) in Hv. inversion Hv. reflexivity.
  - unfold sum_at. rewrite SortProofs.filter_none; [reflexivity|]. intros [[a c] w] Ht. cbn. destruct ((a =? i) && (c =? j)) eqn:Q; [|reflexivity]. exfalso. apply andb_true_iff in Q as [Qa Qb]. apply Nat.eqb_eq in Qa, Qb. subst.
    destruct (proj2 (St i j)) as [k Hk]; [apply in_map_iff; exists (i, j, w); auto|]. exact (No k Hk).
Qed.
Print Assumptions C38_build_sums_duplicates.

(** build of the topology: the coordinates of the pairs, and with Mirror also their transposes, each stored exactly once *)
Theorem C38_topology_build_stores_each_coordinate_once : forall (V : Type) (row_major mirror : bool) (nr nc : nat) (cs : list (nat * nat)),
  (forall i j, wanted mirror cs i j -> fits nr nc (i, j)) ->
  (exists r, topo_run (V := V) row_major mirror nr nc cs r) /\
  forall r, topo_run (V := V) row_major mirror nr nc cs r ->
  exists m, r = Some m /\ rm m = row_major /\ nrows m = nr /\ ncols m = nc /\ wf_topo m /\ unique m /\
    forall i j, (exists k, stored m i j k) <-> wanted mirror cs i j.
Proof.
  intros V rmj mirror nr nc cs H. assert (H' : forall c, closed mirror cs c -> inside nr nc c) by (intros [i j] Hc; apply H; exact Hc).
  split; [apply topo_total; exact H'|]. intros r R. exact (topo_ok rmj nr nc mirror cs r H' R).
Qed.
Print Assumptions C38_topology_build_stores_each_coordinate_once.

(** fastBuild: the stored coordinates are the given ones with their multiplicity, plus with Mirror the transposes of the off-diagonal ones *)
Theorem C38_fast_build_stores_every_coordinate : forall (V : Type) (row_major mirror : bool) (nr nc : nat) (cs : list (nat * nat)),
  (forall i j, wanted mirror cs i j -> fits nr nc (i, j)) ->
  (exists r, fast_run (V := V) row_major mirror nr nc cs r) /\
  forall r, fast_run (V := V) row_major mirror nr nc cs r ->
  exists m, r = Some m /\ rm m = row_major /\ nrows m = nr /\ ncols m = nc /\ wf_topo m /\
    Permutation (map fst (cells m)) (cs ++ if mirror then map (fun c => (snd c, fst c)) (filter (fun c => negb (fst c =? snd c)) cs) else []).
Proof.
  intros V rmj mirror nr nc cs H.
  assert (P : Permutation (flat_map (expand mirror) cs) (cs ++ if mirror then map (fun c => (snd c, fst c)) (filter (fun c => negb (fst c =? snd c)) cs) else [])).
  { clear. unfold expand. destruct mirror; cbn [andb]; [|rewrite app_nil_r; induction cs as [|c cs IH]; cbn; [reflexivity|]; constructor; exact IH].
    induction cs as [|c cs IH]; cbn [flat_map filter app]; [reflexivity|]. destruct (negb (fst c =? snd c)); cbn [app map]; constructor; [|exact IH].
    rewrite <- Permutation_middle. constructor. exact IH. }
  assert (H' : forall c, In c (flat_map (expand mirror) cs) -> inside nr nc c).
  { intros [i j] Hc. apply H. apply (Permutation_in _ P), in_app_or in Hc as [Hc|Hc]; [left; exact Hc|]. destruct mirror; [|destruct Hc]. right. split; [reflexivity|].
    apply in_map_iff in Hc as ([a b] & Q & Hc). inversion Q; subst. apply filter_In in Hc. apply Hc. }
  split; [apply fast_total; exact H'|]. intros r R. destruct (fast_ok rmj nr nc mirror cs r H' R) as (m & E & A & B & C & D & F). exists m. repeat (split; [assumption|]). etransitivity; [exact F|exact P].
Qed.
Print Assumptions C38_fast_build_stores_every_coordinate.

(** a matrix of three rows with a duplicate: an execution meets the hypotheses *)
Definition ex_t : list (nat * nat * Z) := [(1, 0, 5%Z); (0, 1, 2%Z); (1, 0, 7%Z); (2, 1, 1%Z)].
Example C38_case : exists m, build_run true Z.add 0%Z 3 2 ex_t (Some m) /\ get 0%Z m 1 0 = Some 12%Z /\ get 0%Z m 0 0 = Some 0%Z /\ length (inds m) = 3.
Proof.
  assert (H : forall t, In t ex_t -> fits 3 2 (fst t)) by (intros t Ht; repeat (destruct Ht as [<-|Ht]; [cbv; lia|]); destruct Ht).
  exists {| rm := true; nrows := 3; ncols := 2; ptrs := [0; 1; 2; 3]; inds := [1; 0; 1]; vals := [2; 12; 1]%Z |}.
  split; [|repeat split; reflexivity]. exists [(1, 0); (0, 1); (2, 1)], [(1, 0); (0, 1); (2, 1)], ex_t, ex_t.
  split. { repeat constructor; cbn; intuition discriminate. } split. { intro c. cbn. tauto. } repeat (split; [reflexivity|]). cbn. exists [9; 9; 9]. split; reflexivity.
Qed.

(** *** C39 *)
(** transposeFrom between matrices of one layout, when B already has the transposed shape: the stored entries are the transposed ones,
    and B(j, i) = A(i, j).  Missing from the full claim: the shape (refuted below) and the case that B is A (refuted below). *)
Theorem C39_transpose_from_partial : forall (V : Type) (tr : V -> V) (zero : V) (b o : @csr V), tr zero = zero ->
  wf o -> unique o -> rm b = rm o -> nrows b = ncols o -> ncols b = nrows o ->
  (exists r, transpose_run tr b o r) /\
  forall r, transpose_run tr b o r ->
  exists m, r = Some m /\ rm m = rm o /\ nrows m = ncols o /\ ncols m = nrows o /\ wf_topo m /\
    Permutation (entries m) (map (fun e => (snd (fst e), fst (fst e), option_map tr (snd e))) (entries o)) /\
    forall i j, i < nrows o -> j < ncols o -> exists v, get zero o i j = Some v /\ get zero m j i = Some (tr v).
Proof.
  intros V tr zero b o Tz W U Rb Nb Cb. split; [apply transpose_total; exact W|]. intros r R. destruct (transpose_ok tr b o r W Rb Nb Cb R) as (m & E & A & B & C & D & F & P).
  exists m. split; [exact E|]. split; [exact A|]. split; [exact B|]. split; [exact C|]. split; [exact D|]. split; [exact P|]. exact (get_transposed tr zero o m Tz W U D F B C P).
Qed.
Print Assumptions C39_transpose_from_partial.

(** between opposite layouts (scalar values) the arrays are copied and the shape exchanged *)
Theorem C39_transpose_to_other_layout : forall (V : Type) (b o : @csr V), wf o -> rm b = negb (rm o) -> 0 < length (inds o) ->
  let m := transpose_copy b o in wf m /\ nrows m = ncols o /\ ncols m = nrows o /\ entries m = map (fun e => (snd (fst e), fst (fst e), snd e)) (entries o).
Proof. intros V b o W R H. exact (transpose_copy_ok b o W R H). Qed.
Print Assumptions C39_transpose_to_other_layout.

(** the full claim fails: B keeps its own shape, whatever A is *)
Theorem C39_transpose_keeps_old_shape_refuted : forall (V : Type) (tr : V -> V) (b o m : @csr V), transpose_run tr b o (Some m) -> nrows m = nrows b /\ ncols m = ncols b.
Proof. intros V tr b o m R. exact (transpose_shape tr b o m R). Qed.
Print Assumptions C39_transpose_keeps_old_shape_refuted.
(** the full claim fails: whenever A has an entry, A.transposeFrom(A) can access memory out of bounds or leave an index out of range,
    depending on the contents of freshly allocated memory.  ps and lo are whatever the first kernel computed. *)
Theorem C39_transpose_in_place_refuted : forall (V : Type) (o : @csr V) (ps lo : list nat), length ps = S (inner o) -> 0 < length (inds o) ->
  exists a, length a = length (inds o) /\ match transpose_self o ps lo a with None => True | Some m => ~ wf_topo m end.
Proof. intros V o ps lo L H. exact (self_bad o ps lo L H). Qed.
Print Assumptions C39_transpose_in_place_refuted.

Definition ex_b : @csr Z := {| rm := true; nrows := 3; ncols := 2; ptrs := [0; 0]; inds := []; vals := [] |}.
Definition ex_o : @csr Z := {| rm := true; nrows := 2; ncols := 3; ptrs := [0; 2; 3]; inds := [2; 0; 2]; vals := [4; 5; 6]%Z |}.
Lemma ex_o_wf : wf ex_o.
Proof. split; [|reflexivity]. repeat split; cbn; try lia; intros [|[|[|]]]; cbn; lia. Qed.
Lemma ex_o_unique : unique ex_o.
Proof. intros i j k k' A B. apply stored_at in A, B. cbn in *. destruct A as (A1 & A2 & A3), B as (B1 & B2 & B3). destruct i as [|[|]]; cbn in *; [|lia|lia]. destruct k as [|[|]], k' as [|[|]]; cbn in *; lia. Qed.
Example C39_case : wf ex_o /\ unique ex_o /\ rm ex_b = rm ex_o /\ nrows ex_b = ncols ex_o /\ ncols ex_b = nrows ex_o /\
  transpose_run (fun v => v) ex_b ex_o (Some {| rm := true; nrows := 3; ncols := 2; ptrs := [0; 1; 1; 3]; inds := [0; 0; 1]; vals := [5; 4; 6]%Z |}).
Proof.
  split; [apply ex_o_wf|]. split; [apply ex_o_unique|]. repeat (split; [reflexivity|]). exists (visits ex_o). split; [reflexivity|]. cbn. exists [7; 7; 7], [7; 7; 7]%Z. do 2 eexists.
  repeat (split; [reflexivity|]). reflexivity.
Qed.

(** *** C40 *)
(** locate and operator(): the stored position, or absence; nothing outside the arrays is read *)
Theorem C40_lookup_finds_exactly_the_stored_entries : forall (V : Type) (zero : V) (m : @csr V) (i j : nat), wf m -> i < nrows m -> j < ncols m ->
  (exists r, locate m i j = Some r /\ match r with Some k => stored m i j k | None => forall k, ~ stored m i j k end) /\
  (exists v, get zero m i j = Some v /\ ((exists k, stored m i j k /\ nth_error (vals m) k = Some v) \/ ((forall k, ~ stored m i j k) /\ v = zero))).
Proof. intros V zero m i j W Hi Hj. split; [apply locate_ok; [apply W|exact Hi|exact Hj]|apply get_ok; assumption]. Qed.
Print Assumptions C40_lookup_finds_exactly_the_stored_entries.

(** the binary searches, on ordered rows: right if the row does not start at position 0, or its first entry is not after the target.
    Missing from the full claim: the other rows (refuted below). *)
Theorem C40_binary_search_partial : forall (V : Type) (bits : nat) (m : @csr V) (i j : nat), wf_topo m -> ordered m -> (Z.of_nat (length (inds m)) < 2 ^ Z.of_nat bits)%Z ->
  i < nrows m -> j < ncols m ->
  let o := if rm m then i else j in let st := nth o (ptrs m) 0 in
  0 < st \/ (st < nth (S o) (ptrs m) 0 /\ nth st (inds m) 0 <= if rm m then j else i) ->
  exists r, locate_b (2 ^ Z.of_nat bits) m i j = Some r /\ exist_b (2 ^ Z.of_nat bits) m i j = Some (match r with Some _ => true | None => false end) /\
    match r with Some z => stored m i j (Z.to_nat z) /\ (0 <= z)%Z | None => forall k, ~ stored m i j k end.
Proof. intros V bits m i j W O HM Hi Hj o st Hs. exact (locate_b_ok (2 ^ Z.of_nat bits) m i j W O HM Hi Hj Hs). Qed.
Print Assumptions C40_binary_search_partial.

(** the full claim fails: on every other row - the first stored row when the target is before its first entry, and every empty row before
    it - the unsigned upper end wraps around and the loop reads far outside the index array, whatever the number of steps *)
Theorem C40_binary_search_out_of_bounds_refuted : forall (V : Type) (bits : nat) (m : @csr V) (i j : nat), wf_topo m -> ordered m ->
  (2 * Z.of_nat (length (inds m)) + 4 < 2 ^ Z.of_nat bits)%Z -> i < nrows m -> j < ncols m ->
  let o := if rm m then i else j in let st := nth o (ptrs m) 0 in
  ~ (0 < st \/ (st < nth (S o) (ptrs m) 0 /\ nth st (inds m) 0 <= if rm m then j else i)) ->
  forall fuel, bind (bounds_b (2 ^ Z.of_nat bits) m i j) (fun '(st, ed, target) => bsearch fuel (2 ^ Z.of_nat bits) m st ed target) = None.
Proof. intros V bits m i j W O HM Hi Hj o st Hs fuel. exact (bsearch_wraps (2 ^ Z.of_nat bits) m i j fuel W O HM Hi Hj Hs). Qed.
Print Assumptions C40_binary_search_out_of_bounds_refuted.
(** a two-row matrix: (0, 0) is absent, and looking it up by binary search fails; (1, 0) is found *)
Definition ex_s : @csr Z := {| rm := true; nrows := 2; ncols := 3; ptrs := [0; 2; 4]; inds := [1; 2; 0; 2]; vals := [1; 2; 3; 4]%Z |}.
Example C40_case : wf ex_s /\ ordered ex_s /\ locate ex_s 0 0 = Some None /\ locate_b (2 ^ 32) ex_s 0 0 = None /\ locate_b (2 ^ 32) ex_s 1 0 = Some (Some 2%Z) /\ locate_b (2 ^ 32) ex_s 1 1 = Some None /\ exist_b (2 ^ 32) ex_s 1 1 = Some false.
Proof.
  split; [split; [repeat split; cbn; try lia; intros [|[|[|[|]]]]; cbn; lia|reflexivity]|]. split; [|repeat split; reflexivity].
  intros o k k' Ho A B C. cbn in *. destruct o as [|[|]]; cbn in *; [| |lia]; destruct k as [|[|[|[|]]]], k' as [|[|[|[|]]]]; cbn; lia.
Qed.

(** *** C41 *)
(** a semiring whose atomic operation is its addition, a commutative and associative operation *)
Definition lawful {V X T} (sr : semiring V X T) : Prop :=
  (forall a b, s_acc sr a b = s_add sr a b) /\ (forall a b, s_add sr a b = s_add sr b a) /\ (forall a b c, s_add sr a (s_add sr b c) = s_add sr (s_add sr a b) c) /\
  s_add sr (s_ident sr) (s_ident sr) = s_ident sr.
(** spmv_classic adds the product to the output, in both layouts and every order of the updates *)
Theorem C41_spmv_classic_adds_the_product : forall (V X T : Type) (sr : semiring V X T) (dv : V) (dx : X) (m : @csr V) (x : list X) (out : list T),
  lawful sr -> (forall a, s_add sr (s_ident sr) a = a) -> wf m -> length x = ncols m -> length out = nrows m ->
  (exists r, spmv_classic_run sr m x out r) /\
  forall r, spmv_classic_run sr m x out r ->
  exists out', r = Some out' /\ length out' = nrows m /\
    forall i o, nth_error out i = Some o -> nth_error out' i = Some (s_add sr o (product (s_add sr) (s_ident sr) (s_mul sr) dv dx m x i)).
Proof.
  intros V X T sr dv dx m x out (A & B & C & D) Id W Lx Lo. split; [unfold spmv_classic_run; destruct (rm m); apply kernel_total|]. intros r R. eapply classic_ok; eassumption.
Qed.
Print Assumptions C41_spmv_classic_adds_the_product.
(** spmv writes the product: row-major matrices of every shape; column-major ones only if square (the others are refuted below) *)
Theorem C41_spmv_computes_the_product_partial : forall (V X T : Type) (sr : semiring V X T) (dv : V) (dx : X) (m : @csr V) (x : list X) (out : list T),
  lawful sr -> wf m -> length x = ncols m -> length out = nrows m -> rm m = true \/ nrows m = ncols m ->
  (exists r, spmv_run sr m x out r) /\
  forall r, spmv_run sr m x out r ->
  exists out', r = Some out' /\ length out' = nrows m /\ forall i, i < nrows m -> nth_error out' i = Some (product (s_add sr) (s_ident sr) (s_mul sr) dv dx m x i).
Proof.
  intros V X T sr dv dx m x out (A & B & C & D) W Lx Lo Sq. split; [unfold spmv_run; cbv zeta; destruct (rm m); apply kernel_total|]. intros r R. eapply spmv_ok; eassumption.
Qed.
Print Assumptions C41_spmv_computes_the_product_partial.
(** spmv_mask writes the product to the rows whose mask is not set and the identity to the others, in both layouts *)
Theorem C41_spmv_mask_computes_the_unmasked_rows : forall (V X T : Type) (sr : semiring V X T) (dv : V) (dx : X) (m : @csr V) (x : list X) (mask : list bool) (out : list T),
  lawful sr -> wf m -> length x = ncols m -> length out = nrows m -> length mask = nrows m ->
  (exists r, spmv_mask_run sr m x mask out r) /\
  forall r, spmv_mask_run sr m x mask out r ->
  exists out', r = Some out' /\ length out' = nrows m /\
    forall i b, nth_error mask i = Some b -> nth_error out' i = Some (if b then s_ident sr else product (s_add sr) (s_ident sr) (s_mul sr) dv dx m x i).
Proof.
  intros V X T sr dv dx m x mask out (A & B & C & D) W Lx Lo Lm. split; [unfold spmv_mask_run; cbv zeta; destruct (rm m); apply kernel_total|]. intros r R. eapply spmv_mask_ok; eassumption.
Qed.
Print Assumptions C41_spmv_mask_computes_the_unmasked_rows.
(** the predefined semirings on integers are lawful; the products of the tropical ones are sums or products, with the identity (standing
    for infinity) absorbing *)
Theorem C41_integer_semirings_are_lawful : forall lo hi : Z,
  (lawful plus_times /\ lawful boolean /\ lawful (min_plus hi) /\ lawful (max_plus lo) /\ lawful (min_times hi) /\ lawful (max_times lo)) /\
  (forall a b, s_mul plus_times a b = (a * b)%Z) /\ (forall a b, s_mul boolean a b = andb a b) /\
  (forall sr e op, In (sr, e, op) [(min_plus hi, hi, Z.add); (max_plus lo, lo, Z.add); (min_times hi, hi, Z.mul); (max_times lo, lo, Z.mul)] ->
    s_ident sr = e /\ (forall a, s_mul sr e a = e /\ s_mul sr a e = e) /\ forall a b, a <> e -> b <> e -> s_mul sr a b = op a b).
Proof.
  intros lo hi. split; [unfold lawful; cbn [s_acc s_add s_ident plus_times boolean min_plus max_plus min_times max_times]; repeat split; intros; try lia; try (destruct a; try destruct b; try destruct c; reflexivity)|].
  split; [reflexivity|]. split; [reflexivity|]. intros sr e op H.
  assert (M : forall e op, (forall a, mul_for e op e a = e /\ mul_for e op a e = e) /\ forall a b, a <> e -> b <> e -> mul_for e op a b = op a b).
  { intros e0 op0. unfold mul_for. split; [intro a; rewrite Z.eqb_refl, orb_true_r; auto|]. intros a b Ha Hb. rewrite (proj2 (Z.eqb_neq _ _) Ha), (proj2 (Z.eqb_neq _ _) Hb). reflexivity. }
  repeat (destruct H as [Q|H]; [inversion Q; subst; split; [reflexivity|apply M]|]). destruct H.
Qed.
Print Assumptions C41_integer_semirings_are_lawful.
(** the full claim fails for column-major matrices with more columns than rows: columns are ignored *)
Theorem C41_spmv_wide_column_major_refuted : exists (m : @csr Z) x out, wf m /\ unique m /\ length x = ncols m /\ length out = nrows m /\
  exists r, spmv_run plus_times m x out (Some r) /\ nth_error r 0 <> Some (product Z.add 0%Z Z.mul 0%Z 0%Z m x 0).
Proof. exact spmv_wide. Qed.
Print Assumptions C41_spmv_wide_column_major_refuted.
(** and with more rows than columns: the pointer array is read out of bounds, always *)
Theorem C41_spmv_tall_column_major_refuted : forall (V X T : Type) (sr : semiring V X T) (m : @csr V) x out r, wf m -> rm m = false -> ncols m < nrows m -> spmv_run sr m x out r -> r = None.
Proof. intros V X T sr m x out r W R H S. exact (spmv_tall sr m x out r W R H S). Qed.
Print Assumptions C41_spmv_tall_column_major_refuted.
(** and for the plus_times semiring over a floating-point type: products and sums are converted to int, so 1/2 * 1 comes out as 0 *)
Theorem C41_spmv_real_truncates_refuted : exists (m : @csr Q) (x out r : list Q), wf m /\ rm m = true /\ length x = ncols m /\ length out = nrows m /\
  spmv_run plus_times_real m x out (Some r) /\ exists q, nth_error r 0 = Some q /\ ~ (q == product Qplus 0%Q Qmult 0%Q 0%Q m x 0)%Q.
Proof.
  exists {| rm := true; nrows := 1; ncols := 1; ptrs := [0; 1]; inds := [0]; vals := [1 # 2]%Q |}, [1%Q], [0%Q], [0%Q].
  split; [split; [repeat split; cbn; try lia; intros [|]; cbn; lia|reflexivity]|]. repeat (split; [reflexivity|]). split; [unfold spmv_run, kernel_run; cbn; eexists; split; reflexivity|].
  exists 0%Q. split; [reflexivity|]. unfold product, products. cbn. intro H. unfold Qeq in H. cbn in H. discriminate.
Qed.
Print Assumptions C41_spmv_real_truncates_refuted.
Example C41_case : exists r, spmv_run plus_times ex_s [10; 20; 30]%Z [0; 0]%Z r /\ r = Some [80; 150]%Z.
Proof. eexists. split; [unfold spmv_run, kernel_run; cbn; eexists; split; [reflexivity|reflexivity]|reflexivity]. Qed.
