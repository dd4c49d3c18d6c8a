(** C102: value_seq. *)
From Verif Require Import Prelude ItModel SrModel SrSpec SrProofs VsModel VsSpec VsProofs.
Local Open Scope nat_scope.

(** entry i of a scan of each kind combines exactly the values before, up to, after, from i; the scan of nothing is empty *)
Theorem C102_scan : forall T (m : monoid T) D op e ns cate, lawful m D op e -> Forall D ns ->
  exists r, scan m ns cate = Some r /\ length r = length ns /\ forall i, i < length ns -> nth_error r i = Some (fold_right op e (part cate i ns)).
Proof.
  intros T m D op e ns cate L H. destruct ns as [|x l] eqn:E; [exists []; split; [reflexivity|split; [reflexivity|cbn; lia]]|]. rewrite <- E in *.
  exists (map (fun i => fold_right op e (part cate i ns)) (seq 0 (length ns))). split; [apply (get_sums_ok m D op e L); [congruence|exact H]|]. split; [now rewrite map_length, seq_length|].
  intros i I. rewrite nth_error_map, (nth_error_nth' _ 0) by (rewrite seq_length; exact I). rewrite seq_nth by exact I. reflexivity.
Qed.
Print Assumptions C102_scan.
(** the kinds fit together: before, the value itself, after make up the whole *)
Theorem C102_parts : forall T (m : monoid T) D op e ns i x, lawful m D op e -> Forall D ns -> nth_error ns i = Some x ->
  exists a b c d w, get_sum m ns 0 i = Some a /\ get_sum m ns 1 i = Some b /\ get_sum m ns 2 i = Some c /\ get_sum m ns 3 i = Some d /\ reduce m ns = Some w /\
    b = op a x /\ d = op x c /\ w = op a d /\ w = op b c.
Proof.
  intros T m D op e ns i x L H X. assert (N : ns <> []) by (intros ->; destruct i; discriminate).
  assert (I : i < length ns) by (apply nth_error_some_lt in X; exact X).
  assert (S1 : firstn (S i) ns = firstn i ns ++ [x]).
  { clear - X. revert i X. induction ns as [|y l IH]; intros [|i] X; try discriminate; cbn in *; [injection X as ->; reflexivity|]. now rewrite (IH i X). }
  assert (S2 : skipn i ns = x :: skipn (S i) ns).
  { clear - X. revert i X. induction ns as [|y l IH]; intros [|i] X; try discriminate; cbn in *; [injection X as ->; reflexivity|]. apply IH, X. }
  assert (F : forall n, Forall D (firstn n ns) /\ Forall D (skipn n ns)) by (intros n; rewrite <- (firstn_skipn n ns) in H; apply Forall_app in H; exact H).
  assert (Dx : D x) by (rewrite Forall_forall in H; apply H, (nth_error_In _ _ X)).
  do 5 eexists. rewrite !(get_sum_ok m D op e L ns _ i N H). unfold reduce. rewrite (lw_call _ _ _ _ L ns N H). do 5 (split; [reflexivity|]). cbn [part].
  repeat split.
  - rewrite S1, (total_app m D op e L) by (try apply F; repeat constructor; exact Dx). cbn. now rewrite (lw_right _ _ _ _ L x Dx).
  - rewrite S2. reflexivity.
  - rewrite <- (firstn_skipn i ns) at 1. apply (total_app m D op e L); apply F.
  - rewrite <- (firstn_skipn (S i) ns) at 1. apply (total_app m D op e L); apply F.
Qed.
Print Assumptions C102_parts.

(** the predefined monoids are lawful: sums and products of unsigned types modulo 2^w, extrema of all types *)
Theorem C102_monoids : forall t, (1 <= bits t)%Z ->
  (sgn t = false -> lawful (plus_monoid t) (fits t) (fun x y => (x + y) mod 2 ^ bits t)%Z 0%Z) /\
  (sgn t = false -> lawful (multiplies_monoid t) (fits t) (fun x y => (x * y) mod 2 ^ bits t)%Z 1%Z) /\
  lawful (max_monoid t) (fits t) Z.max (lo t) /\ lawful (min_monoid t) (fits t) Z.min (hi t).
Proof.
  intros t B. pose proof (lo_hi t B) as LH. assert (P : (2 <= 2 ^ bits t)%Z) by (change 2%Z with (2 ^ 1)%Z at 1; apply Z.pow_le_mono_r; lia).
  assert (U : sgn t = false -> forall z, fits t z <-> (0 <= z < 2 ^ bits t)%Z) by (intros S z; unfold fits, lo, hi; rewrite S; lia).
  assert (Q : forall (f : Z -> Z), sgn t = false -> forall x, fits t (f x mod 2 ^ bits t)%Z) by (intros f S x; apply (U S), Z.mod_pos_bound; lia).
  split; [intros S|split; [intros S|split]].
  - split; [reflexivity|apply (U S); lia| | | | |].
    + intros x y _ _. apply (Q (fun x => x + y)%Z S).
    + intros x y z _ _ _. rewrite Zplus_mod_idemp_r, Zplus_mod_idemp_l. f_equal. lia.
    + intros x X. apply (U S) in X. rewrite Z.add_0_l. apply Z.mod_small, X.
    + intros x X. apply (U S) in X. rewrite Z.add_0_r. apply Z.mod_small, X.
    + intros [|a r] N F; [contradiction|]. cbn [plus_monoid m_call]. rewrite Forall_forall in F. rewrite (sum_unsigned t r S a F). f_equal. clear N. 
      cbn [total fold_right]. clear F. revert a. induction r as [|b r IH]; intros a; cbn [fold_right]; [reflexivity|]. rewrite <- (IH b). unfold SrSpec.total. cbn [fold_right]. now rewrite Zplus_mod_idemp_r.
  - split; [reflexivity|apply (U S); lia| | | | |].
    + intros x y _ _. apply (Q (fun x => x * y)%Z S).
    + intros x y z _ _ _. rewrite Zmult_mod_idemp_r, Zmult_mod_idemp_l. f_equal. lia.
    + intros x X. apply (U S) in X. rewrite Z.mul_1_l. apply Z.mod_small, X.
    + intros x X. apply (U S) in X. rewrite Z.mul_1_r. apply Z.mod_small, X.
    + intros [|a r] N F; [contradiction|]. cbn [multiplies_monoid m_call]. rewrite Forall_forall in F. rewrite (prod_unsigned t r S a F). f_equal. clear N F.
      revert a. induction r as [|b r IH]; intros a; [reflexivity|]. change (fold_right (fun x y => (x * y) mod 2 ^ bits t)%Z 1%Z (a :: b :: r)) with ((a * fold_right (fun x y => (x * y) mod 2 ^ bits t)%Z 1%Z (b :: r)) mod 2 ^ bits t)%Z.
      rewrite <- (IH b). unfold product. cbn [fold_right]. now rewrite Zmult_mod_idemp_r.
  - split; [apply numeric_lowest_lo, B|unfold fits; lia|unfold fits; intros; lia|intros; lia|unfold fits; intros; lia|unfold fits; intros; lia|].
    intros [|a r] N F; [contradiction|]. cbn [max_monoid m_call]. f_equal. rewrite Forall_forall in F. destruct (pack_max t r a B F) as (I & M).
    assert (G : forall l, (forall x, In x l -> fits t x) -> (forall x, In x l -> (x <= fold_right Z.max (lo t) l)%Z) /\ (In (fold_right Z.max (lo t) l) l \/ l = [])).
    { clear. induction l as [|x l IH]; intros F; [split; [intros x []|now right]|]. destruct IH as (A & C); [intros; apply F; now right|]. cbn [fold_right]. split.
      - intros y [<-|Y]; [lia|specialize (A y Y); lia].
      - left. destruct C as [C| ->]; [destruct (Z.max_spec x (fold_right Z.max (lo t) l)) as [(_ & ->)|(_ & ->)]; [now right|now left]|]. left. cbn. pose proof (F x (or_introl eq_refl)) as X. unfold fits in X. lia. }
    destruct (G _ F) as (A & [C|C]); [|discriminate]. specialize (M _ C). specialize (A _ I). lia.
  - split; [apply numeric_max_hi, B|unfold fits; lia|unfold fits; intros; lia|intros; lia|unfold fits; intros; lia|unfold fits; intros; lia|].
    intros [|a r] N F; [contradiction|]. cbn [min_monoid m_call]. f_equal. rewrite Forall_forall in F. destruct (pack_min t r a B F) as (I & M).
    assert (G : forall l, (forall x, In x l -> fits t x) -> (forall x, In x l -> (fold_right Z.min (hi t) l <= x)%Z) /\ (In (fold_right Z.min (hi t) l) l \/ l = [])).
    { clear. induction l as [|x l IH]; intros F; [split; [intros x []|now right]|]. destruct IH as (A & C); [intros; apply F; now right|]. cbn [fold_right]. split.
      - intros y [<-|Y]; [lia|specialize (A y Y); lia].
      - left. destruct C as [C| ->]; [destruct (Z.min_spec x (fold_right Z.min (hi t) l)) as [(_ & ->)|(_ & ->)]; [now left|now right]|]. left. cbn. pose proof (F x (or_introl eq_refl)) as X. unfold fits in X. lia. }
    destruct (G _ F) as (A & [C|C]); [|discriminate]. specialize (M _ C). specialize (A _ I). lia.
Qed.
Print Assumptions C102_monoids.

(** shuffles: defined exactly for indices in range, entry k is the value at index k; two shuffles are one; a permutation of the indices permutes the values *)
Theorem C102_shuffle : forall T (ns : list T) is,
  ((forall i, In i is -> i < length ns) <-> exists r, shuffle ns is = Some r) /\
  (forall r, shuffle ns is = Some r -> length r = length is /\ forall k i, nth_error is k = Some i -> nth_error r k = nth_error ns i) /\
  (forall r js s ks, shuffle ns is = Some r -> shuffle r js = Some s -> shuffle is js = Some ks -> shuffle ns ks = Some s) /\
  (forall r, Permutation is (seq 0 (length ns)) -> shuffle ns is = Some r -> Permutation r ns).
Proof.
  intros T ns is. split; [apply shuffle_some|]. split; [apply shuffle_nth|]. split.
  - intros r js s ks R. revert s ks. destruct (shuffle_nth ns is r R) as (Len & N). induction js as [|j js IH]; intros s ks S K; cbn [shuffle] in S, K; [injection S as <-; injection K as <-; reflexivity|].
    destruct (nth_error r j) as [x|] eqn:X; [|discriminate]. destruct (shuffle r js) as [s'|]; [|discriminate]. injection S as <-.
    destruct (nth_error is j) as [i|] eqn:I; [|discriminate]. destruct (shuffle is js) as [k'|]; [|discriminate]. injection K as <-. cbn [shuffle]. rewrite <- (N j i I), X. now rewrite (IH s' k' eq_refl eq_refl).
  - intros r P. revert r. assert (G : forall a b, Permutation a b -> forall r s, shuffle ns a = Some r -> shuffle ns b = Some s -> Permutation r s).
    { induction 1 as [|x a b _ IH|x y a|a b c P1 I1 P2 I2]; intros r s R S; cbn [shuffle] in *.
      - injection R as <-. injection S as <-. constructor.
      - destruct (nth_error ns x); [|discriminate]. destruct (shuffle ns a); [|discriminate]. destruct (shuffle ns b); [|discriminate]. injection R as <-. injection S as <-. constructor. apply IH; reflexivity.
      - destruct (nth_error ns x), (nth_error ns y), (shuffle ns a); try discriminate. injection R as <-. injection S as <-. apply perm_swap.
      - destruct (proj1 (shuffle_some ns b)) as (q & Q); [|exact (Permutation_trans (I1 r q R Q) (I2 q s Q S))]. intros i I. apply (proj2 (shuffle_some ns a)); [eauto|]. apply (Permutation_in i (Permutation_sym P1)), I. }
    intros r R. apply (G _ _ P r ns R). clear. assert (H : forall pre l : list T, shuffle (pre ++ l) (seq (length pre) (length l)) = Some l).
    { intros pre l. revert pre. induction l as [|x l IH]; intros pre; cbn [length seq shuffle]; [reflexivity|]. rewrite nth_error_app2, Nat.sub_diag by lia. cbn [nth_error].
      specialize (IH (pre ++ [x])). rewrite app_length, <- app_assoc in IH. cbn [length app] in IH. rewrite Nat.add_1_r in IH. now rewrite IH. }
    exact (H [] ns).
Qed.
Print Assumptions C102_shuffle.

Example C102_ex : let t := Ity false 64 in let ns := [3; 1; 4]%Z in Forall (fits t) ns /\ scan (plus_monoid t) ns 0 = Some [0; 3; 4]%Z /\ scan (plus_monoid t) ns 1 = Some [3; 4; 8]%Z /\
  scan (plus_monoid t) ns 2 = Some [5; 4; 0]%Z /\ scan (plus_monoid t) ns 3 = Some [8; 5; 4]%Z /\ scan (multiplies_monoid t) ns 2 = Some [4; 4; 1]%Z /\
  reduce (max_monoid t) ns = Some 4%Z /\ shuffle ns [2; 0; 1] = Some [4; 3; 1]%Z /\ shuffle ns [3] = None.
Proof. split; [repeat constructor; vm_compute; congruence|]. repeat split; vm_compute; reflexivity. Qed.
