(** C101: lemmas. *)
From Verif Require Import Prelude LitModel LitSpec.
Open Scope Z_scope.

Lemma size_max_val : size_max = 2 ^ 64 - 1.
Proof. reflexivity. Qed.
Lemma guard p d : 0 <= p < 2 ^ 64 -> 0 <= d <= 9 -> (p <? wrap (wrap (size_max - d) / 10 + 1)) = (p * 10 + d <=? 2 ^ 64 - 1).
Proof.
  intros P D. rewrite size_max_val. unfold wrap, size_bits. rewrite (Z.mod_small (2 ^ 64 - 1 - d)) by lia.
  assert (Q : 0 <= (2 ^ 64 - 1 - d) / 10 < 2 ^ 61) by (split; [apply Z.div_pos; lia|apply Z.div_lt_upper_bound; lia]). rewrite Z.mod_small by lia.
  pose proof (Z.div_mod (2 ^ 64 - 1 - d) 10). pose proof (Z.mod_pos_bound (2 ^ 64 - 1 - d) 10).
  destruct (Z.ltb_spec p ((2 ^ 64 - 1 - d) / 10 + 1)), (Z.leb_spec (p * 10 + d) (2 ^ 64 - 1)); try reflexivity; lia.
Qed.
Lemma decimal_pos d : (forall x, In x d -> 0 <= x <= 9) -> 0 <= decimal d.
Proof.
  induction d as [|x r IH]; intros H; cbn [decimal]; [lia|]. pose proof (H x (or_introl eq_refl)). assert (0 <= decimal r) by (apply IH; intros y Y; apply H; now right).
  assert (0 < 10 ^ Z.of_nat (length r)) by (apply Z.pow_pos_nonneg; lia). nia.
Qed.
Lemma digits_range c : well_formed c -> forall x, In x (digits c) -> 0 <= x <= 9.
Proof.
  intros W x I. apply in_map_iff in I. destruct I as (y & <- & I). apply filter_In in I. destruct I as (I & N). apply negb_true_iff, Z.eqb_neq in N.
  destruct (W y I) as [E|E]; [contradiction|]. unfold is_digit in E. lia.
Qed.
Lemma digits_cons c0 c : digits (c0 :: c) = if c0 =? 39 then digits c else (c0 - 48) :: digits c.
Proof. unfold digits, quote. cbn [filter]. destruct (c0 =? 39); reflexivity. Qed.
Lemma index_ok c : forall p, well_formed c -> 0 <= p < 2 ^ 64 ->
  let v := p * 10 ^ Z.of_nat (length (digits c)) + decimal (digits c) in index_impl p c = if v <=? 2 ^ 64 - 1 then Some v else None.
Proof.
  induction c as [|c0 c IH]; intros p W P.
  - cbn [index_impl digits filter map length decimal]. replace (p * 10 ^ Z.of_nat 0 + 0) with p by (cbn; lia). cbv zeta. destruct (Z.leb_spec p (2 ^ 64 - 1)); [reflexivity|lia].
  - assert (W' : well_formed c) by (intros x X; apply W; now right). cbn [index_impl]. rewrite digits_cons.
    destruct (Z.eqb_spec c0 39) as [->|N]; [exact (IH p W' P)|]. destruct (W c0 (or_introl eq_refl)) as [E|E]; [contradiction|]. unfold is_digit in E.
    replace (48 <=? c0) with true by (symmetry; apply Z.leb_le; lia). replace (c0 <=? 57) with true by (symmetry; apply Z.leb_le; lia). cbn [andb length decimal].
    set (d := c0 - 48). assert (D : 0 <= d <= 9) by (subst d; lia). rewrite (guard p d P D).
    assert (T : 0 < 10 ^ Z.of_nat (length (digits c))) by (apply Z.pow_pos_nonneg; lia). pose proof (decimal_pos _ (digits_range c W')) as Dp.
    replace (p * 10 ^ Z.of_nat (S (length (digits c))) + (d * 10 ^ Z.of_nat (length (digits c)) + decimal (digits c))) with ((p * 10 + d) * 10 ^ Z.of_nat (length (digits c)) + decimal (digits c)) by (rewrite Nat2Z.inj_succ, Z.pow_succ_r by lia; ring).
    cbv zeta. destruct (Z.leb_spec (p * 10 + d) (2 ^ 64 - 1)) as [L|L].
    + replace (wrap (wrap (p * 10) + d)) with (p * 10 + d); [apply IH; [exact W'|lia]|]. unfold wrap, size_bits. rewrite (Z.mod_small (p * 10)), Z.mod_small by lia. reflexivity.
    + destruct (Z.leb_spec ((p * 10 + d) * 10 ^ Z.of_nat (length (digits c)) + decimal (digits c)) (2 ^ 64 - 1)) as [K|K]; [nia|reflexivity].
Qed.
Lemma index_bad c : forall p, (exists x, In x c /\ x <> quote /\ ~ is_digit x) -> index_impl p c = None.
Proof.
  induction c as [|c0 c IH]; intros p (x & I & Q & N); [destruct I|]. cbn [index_impl]. unfold quote, is_digit in *.
  destruct (Z.eqb_spec c0 39) as [->|N0].
  - destruct I as [I|I]; [lia|]. apply IH. exists x. tauto.
  - destruct (Z.leb_spec 48 c0); destruct (Z.leb_spec c0 57); cbn [andb]; try reflexivity. destruct I as [I|I]; [lia|]. destruct (_ <? _); [|reflexivity]. apply IH. exists x. tauto.
Qed.
