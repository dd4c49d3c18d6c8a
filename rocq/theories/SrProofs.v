(** C98: lemmas. *)
From Verif Require Import Prelude ItModel SrModel SrSpec.
From Coq Require Import Permutation.
Open Scope Z_scope.

Lemma pow_half t : 1 <= bits t -> 2 ^ bits t = 2 * 2 ^ (bits t - 1) /\ 0 < 2 ^ (bits t - 1).
Proof. intros H. split; [rewrite <- Z.pow_succ_r by lia; f_equal; lia|apply Z.pow_pos_nonneg; lia]. Qed.
Lemma numeric_max_hi t : 1 <= bits t -> numeric_max t = hi t.
Proof.
  intros H. destruct (pow_half t H) as (P & Q). unfold numeric_max, hi, conv. rewrite Z.shiftl_1_l. unfold Z.lnot, Z.pred. destruct (sgn t).
  - replace (- 2 ^ (bits t - 1) + -1) with (2 ^ (bits t - 1) - 1 + (-1) * 2 ^ bits t) by lia. rewrite Z.mod_add, Z.mod_small by lia.
    destruct (Z.ltb_spec (2 ^ (bits t - 1) - 1) (2 ^ (bits t - 1))); lia.
  - replace (- 0 + -1) with (2 ^ bits t - 1 + (-1) * 2 ^ bits t) by lia. rewrite Z.mod_add, Z.mod_small by lia. reflexivity.
Qed.
Lemma numeric_lowest_lo t : 1 <= bits t -> numeric_lowest t = lo t.
Proof.
  intros H. destruct (pow_half t H) as (P & Q). unfold numeric_lowest, lo, conv. rewrite Z.shiftl_1_l. destruct (sgn t); [|reflexivity].
  rewrite Z.mod_small by lia. destruct (Z.ltb_spec (2 ^ (bits t - 1)) (2 ^ (bits t - 1))); lia.
Qed.
Lemma arith_fits t z : fits t z -> arith t z = Some z.
Proof.
  unfold fits, arith. intros F. destruct (sgn t) eqn:S.
  - replace (lo t <=? z) with true by (symmetry; apply Z.leb_le; lia). replace (z <=? hi t) with true by (symmetry; apply Z.leb_le; lia). reflexivity.
  - unfold lo, hi in F. rewrite S in F. rewrite Z.mod_small by lia. reflexivity.
Qed.
Lemma conv_fits t z : 1 <= bits t -> fits t z -> conv t z = z.
Proof.
  intros B F. destruct (pow_half t B) as (P & Q). unfold fits, lo, hi, conv in *. destruct (sgn t); [|rewrite Z.mod_small by lia; reflexivity].
  destruct (Z.ltb_spec (z mod 2 ^ bits t) (2 ^ (bits t - 1))) as [L|L].
  - destruct (Z_lt_le_dec z 0); [|rewrite Z.mod_small by lia; reflexivity]. exfalso. replace z with (z + 2 ^ bits t + (-1) * 2 ^ bits t) in L by lia. rewrite Z.mod_add, Z.mod_small in L by lia. lia.
  - destruct (Z_lt_le_dec z 0); [|rewrite Z.mod_small in L by lia; lia]. replace z with (z + 2 ^ bits t + (-1) * 2 ^ bits t) at 1 by lia. rewrite Z.mod_add, Z.mod_small by lia. lia.
Qed.

(** minimum and maximum of a pack *)
Lemma min_fold args : forall r, is_min (r :: args) (fold_left (fun res x => if res <? x then res else x) args r).
Proof.
  induction args as [|a args IH]; intros r; cbn [fold_left]; [split; [now left|intros x [<-|[]]; lia]|].
  destruct (IH (if r <? a then r else a)) as (I & M). assert (R : (if r <? a then r else a) = Z.min r a) by (destruct (Z.ltb_spec r a); lia). rewrite R in *. split.
  - destruct I as [I|I]; [|right; now right]. rewrite <- I. destruct (Z.min_spec r a) as [(_ & E)|(_ & E)]; rewrite E; [now left|right; now left].
  - intros x [<-|[<-|X]]; [specialize (M _ (or_introl eq_refl)); lia|specialize (M _ (or_introl eq_refl)); lia|apply M; now right].
Qed.
Lemma max_fold args : forall r, is_max (r :: args) (fold_left (fun res x => if x <? res then res else x) args r).
Proof.
  induction args as [|a args IH]; intros r; cbn [fold_left]; [split; [now left|intros x [<-|[]]; lia]|].
  destruct (IH (if a <? r then r else a)) as (I & M). assert (R : (if a <? r then r else a) = Z.max r a) by (destruct (Z.ltb_spec a r); lia). rewrite R in *. split.
  - destruct I as [I|I]; [|right; now right]. rewrite <- I. destruct (Z.max_spec r a) as [(_ & E)|(_ & E)]; rewrite E; [right; now left|now left].
  - intros x [<-|[<-|X]]; [specialize (M _ (or_introl eq_refl)); lia|specialize (M _ (or_introl eq_refl)); lia|apply M; now right].
Qed.

Lemma pack_min t args a : 1 <= bits t -> (forall x, In x (a :: args) -> fits t x) -> is_min (a :: args) (min_pack t (a :: args)).
Proof.
  intros B F. unfold min_pack. cbn [fold_left]. rewrite (numeric_max_hi t B).
  assert (E : (if hi t <? a then hi t else a) = a) by (destruct (Z.ltb_spec (hi t) a); [|reflexivity]; specialize (F a (or_introl eq_refl)); unfold fits in F; lia).
  rewrite E. apply min_fold.
Qed.
Lemma pack_max t args a : 1 <= bits t -> (forall x, In x (a :: args) -> fits t x) -> is_max (a :: args) (max_pack t (a :: args)).
Proof.
  intros B F. unfold max_pack. cbn [fold_left]. rewrite (numeric_lowest_lo t B).
  assert (E : (if a <? lo t then lo t else a) = a) by (destruct (Z.ltb_spec a (lo t)); [|reflexivity]; specialize (F a (or_introl eq_refl)); unfold fits in F; lia).
  rewrite E. apply max_fold.
Qed.
Lemma min_two t a b : 1 <= bits t -> fits t a -> fits t b -> min_pack t [a; b] = Z.min a b.
Proof.
  intros B Fa Fb. destruct (pack_min t [b] a B) as (I & M); [intros x [<-|[<-|[]]]; assumption|].
  pose proof (M a (or_introl eq_refl)). pose proof (M b (or_intror (or_introl eq_refl))). destruct I as [I|[I|[]]]; lia.
Qed.
Lemma max_two t a b : 1 <= bits t -> fits t a -> fits t b -> max_pack t [a; b] = Z.max a b.
Proof.
  intros B Fa Fb. destruct (pack_max t [b] a B) as (I & M); [intros x [<-|[<-|[]]]; assumption|].
  pose proof (M a (or_introl eq_refl)). pose proof (M b (or_intror (or_introl eq_refl))). destruct I as [I|[I|[]]]; lia.
Qed.
Lemma lo_hi t : 1 <= bits t -> lo t <= hi t.
Proof. intros B. destruct (pow_half t B). unfold lo, hi. destruct (sgn t); lia. Qed.
Lemma mul_for_code t inf op x y : codable t inf x -> codable t inf y -> codable t inf (xmul op x y) ->
  multiplier_for t inf op (code inf x) (code inf y) = Some (code inf (xmul op x y)).
Proof.
  unfold multiplier_for, codable, code, xmul. destruct x as [a|], y as [b|]; intros X Y R; rewrite ?Z.eqb_refl, ?orb_true_r; try reflexivity.
  replace (a =? inf) with false by (symmetry; apply Z.eqb_neq; tauto). replace (b =? inf) with false by (symmetry; apply Z.eqb_neq; tauto).
  apply arith_fits; tauto.
Qed.

Lemma arith_signed t z s : sgn t = true -> arith t z = Some s -> s = z.
Proof. unfold arith. intros ->. destruct (_ && _); congruence. Qed.
Lemma sum_signed t args : sgn t = true -> forall a s, sum_pack t a args = Some s -> s = total (a :: args).
Proof.
  intros S. induction args as [|b r IH]; intros a s H; [injection H as <-; unfold total; cbn [fold_right]; lia|]. cbn [sum_pack] in H.
  destruct (sum_pack t b r) as [u|] eqn:U; [|discriminate]. cbn [obind] in H. apply (arith_signed t _ _ S) in H. apply IH in U. subst. reflexivity.
Qed.
Lemma prod_signed t args : sgn t = true -> forall a s, prod_pack t a args = Some s -> s = product (a :: args).
Proof.
  intros S. induction args as [|b r IH]; intros a s H; [injection H as <-; unfold product; cbn [fold_right]; lia|]. cbn [prod_pack] in H.
  destruct (prod_pack t b r) as [u|] eqn:U; [|discriminate]. cbn [obind] in H. apply (arith_signed t _ _ S) in H. apply IH in U. subst. reflexivity.
Qed.
Lemma sum_defined t args : forall a, (forall p q, a :: args = p ++ q -> q <> [] -> fits t (total q)) -> sum_pack t a args = Some (total (a :: args)).
Proof.
  induction args as [|b r IH]; intros a H; [unfold total; cbn; f_equal; lia|]. cbn [sum_pack]. rewrite IH.
  - cbn [obind]. apply (arith_fits t (total (a :: b :: r))), (H [] _ eq_refl). discriminate.
  - intros p q E N. apply (H (a :: p) q); [cbn; now rewrite E|exact N].
Qed.
Lemma prod_defined t args : forall a, (forall p q, a :: args = p ++ q -> q <> [] -> fits t (product q)) -> prod_pack t a args = Some (product (a :: args)).
Proof.
  induction args as [|b r IH]; intros a H; [unfold product; cbn [prod_pack fold_right]; f_equal; lia|]. cbn [prod_pack]. rewrite IH.
  - cbn [obind]. apply (arith_fits t (product (a :: b :: r))), (H [] _ eq_refl). discriminate.
  - intros p q E N. apply (H (a :: p) q); [cbn; now rewrite E|exact N].
Qed.
Lemma sum_unsigned t args : sgn t = false -> forall a, (forall x, In x (a :: args) -> fits t x) -> sum_pack t a args = Some (total (a :: args) mod 2 ^ bits t).
Proof.
  intros S. induction args as [|b r IH]; intros a F.
  - specialize (F a (or_introl eq_refl)). unfold fits, lo, hi in F. rewrite S in F. unfold total. cbn [sum_pack fold_right]. rewrite Z.add_0_r, Z.mod_small by lia. reflexivity.
  - cbn [sum_pack]. rewrite IH by (intros x X; apply F; now right). cbn [obind]. unfold arith. rewrite S. f_equal. apply Z.add_mod_idemp_r. 
    specialize (F a (or_introl eq_refl)). unfold fits, lo, hi in F. rewrite S in F. lia.
Qed.
Lemma prod_unsigned t args : sgn t = false -> forall a, (forall x, In x (a :: args) -> fits t x) -> prod_pack t a args = Some (product (a :: args) mod 2 ^ bits t).
Proof.
  intros S. induction args as [|b r IH]; intros a F.
  - specialize (F a (or_introl eq_refl)). unfold fits, lo, hi in F. rewrite S in F. unfold product. cbn [prod_pack fold_right]. rewrite Z.mul_1_r, Z.mod_small by lia. reflexivity.
  - cbn [prod_pack]. rewrite IH by (intros x X; apply F; now right). cbn [obind]. unfold arith. rewrite S. f_equal. apply Z.mul_mod_idemp_r.
    specialize (F a (or_introl eq_refl)). unfold fits, lo, hi in F. rewrite S in F. lia.
Qed.
