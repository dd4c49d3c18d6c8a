(** C96: the integer functions: gcd, lcm, powers, clamping and the result types of operations. *)
From Coq Require Import Znumtheory.
From Verif Require Import Prelude ItModel MuModel MuSpec MuProofs.
Open Scope Z_scope.

(** the forbidden pairs of gcd: the lowest value and -1 of a signed type *)
Definition overflowing (t : ity) (u v : Z) : Prop := sgn t = true /\ (u = lo t /\ v = -1 \/ u = -1 /\ v = lo t).

(** gcd ends with a greatest common divisor, nonnegative if the arguments are, for all values of the type except the lowest value against -1. *)
Theorem C96_gcd_partial t u v : 2 <= bits t -> fits t u -> fits t v -> ~ overflowing t u v ->
  exists g, gcd t u v = Val g /\ is_gcd u v g /\ Z.abs g = Z.gcd u v /\ fits t g /\ (0 <= u -> 0 <= v -> g = Z.gcd u v).
Proof.
  intros B U V N. destruct (gcd_loop_ok t B (S (Z.abs_nat v)) u v) as (g & G & D & F & P); [lia|assumption..|].
  pose proof (is_gcd_Z u v g D) as A. exists g. split; [exact G|]. split; [exact D|]. split; [exact A|]. split; [exact F|].
  intros H1 H2. specialize (P H1 H2). lia.
Qed.
Print Assumptions C96_gcd_partial.

(** The missing part: the lowest value and -1 divide with overflow in either order, and the sign of the answer follows no rule. *)
Theorem C96_gcd_refuted :
  (forall t u v, 2 <= bits t -> overflowing t u v -> gcd t u v = Undef) /\
  gcd (Ity true 32) 4 (-6) = Val (-2) /\ gcd (Ity true 32) (-6) 4 = Val (-2) /\ gcd (Ity true 32) (-4) 6 = Val 2 /\ gcd (Ity true 32) (-4) 0 = Val (-4).
Proof.
  split; [|repeat split; reflexivity]. intros t u v B (S & H). pose proof (limits t B) as (L1 & L2 & L3 & _). specialize (L3 S).
  assert (C : crem t (lo t) (-1) = None) by (unfold crem; rewrite S, Z.eqb_refl; reflexivity). unfold gcd.
  destruct H as [[-> ->]|[-> ->]].
  - change (Z.abs_nat (-1)) with 1%nat. cbn [gcd_loop Z.eqb]. rewrite C. reflexivity.
  - assert (exists n, Z.abs_nat (lo t) = Datatypes.S n) as (n & ->) by (exists (Z.abs_nat (lo t) - 1)%nat; lia). cbn [gcd_loop].
    replace (lo t =? 0) with false by (symmetry; apply Z.eqb_neq; lia).
    assert (R : Z.rem (-1) (lo t) = -1) by (apply Z.rem_small_iff; lia).
    assert (C1 : crem t (-1) (lo t) = Some (-1)).
    { unfold crem. rewrite R. replace (lo t =? 0) with false by (symmetry; apply Z.eqb_neq; lia). replace (-1 =? lo t) with false by (symmetry; apply Z.eqb_neq; lia). now rewrite andb_false_r. }
    rewrite C1. cbn [of_option bind Z.eqb]. rewrite C. reflexivity.
Qed.
Print Assumptions C96_gcd_refuted.

(** lcm, as soon as the least common multiple is a value of the type and the arguments are not both zero: no intermediate overflow. *)
Theorem C96_lcm_partial t u v : 2 <= bits t -> fits t u -> fits t v -> (u <> 0 \/ v <> 0) -> Z.lcm u v <= hi t ->
  exists m, lcm t u v = Val m /\ is_lcm u v m /\ Z.abs m = Z.lcm u v /\ (0 <= u -> 0 <= v -> m = Z.lcm u v).
Proof.
  intros B U V NZ H. pose proof (limits t B) as (L1 & L2 & L3 & L4).
  assert (BIG : forall a b, b <> 0 -> Z.abs a <= Z.lcm a b \/ a = 0).
  { intros a b NB. destruct (Z.eq_dec a 0) as [E|E]; [now right|left]. apply Z.divide_pos_le; [|apply Z.divide_abs_l, Z.divide_lcm_l].
    pose proof (Z.lcm_nonneg a b). assert (Z.lcm a b <> 0) by (rewrite Z.lcm_eq_0; tauto). lia. }
  assert (NO : ~ overflowing t u v).
  { intros (S & [[-> ->]|[-> ->]]); specialize (L3 S); [destruct (BIG (lo t) (-1)); lia|]. rewrite Z.lcm_comm in H. destruct (BIG (lo t) (-1)); lia. }
  destruct (C96_gcd_partial t u v B U V NO) as (g & G & (D1 & D2 & D3) & A & GF & GP).
  assert (GN : g <> 0) by (intros ->; cbn in A; symmetry in A; apply Z.gcd_eq_0 in A; lia).
  unfold lcm. rewrite G. cbn [bind]. destruct D1 as (q & Q).
  assert (QQ : Z.quot u g = q) by (rewrite Q; now apply Z.quot_mul).
  assert (LM : Z.abs (q * v) = Z.lcm u v).
  { unfold Z.lcm. rewrite <- A. destruct D2 as (w & W). assert (VW : v / Z.abs g = w \/ v / Z.abs g = - w).
    { destruct (Z.abs_eq_or_opp g) as [E|E]; rewrite E, W; [left; now apply Z.div_mul|right]. rewrite <- (Z.mul_opp_opp w g). apply Z.div_mul. lia. }
    assert (X : u * w = q * v) by (rewrite Q, W; ring). destruct VW as [-> | ->]; [now rewrite X|]. rewrite Z.mul_opp_r, Z.abs_opp. now rewrite X. }
  assert (CD : cdiv t u g = Some q).
  { unfold cdiv. replace (g =? 0) with false by (symmetry; now apply Z.eqb_neq). destruct (sgn t && (u =? lo t) && (g =? -1)) eqn:E; [exfalso|now rewrite QQ].
    apply andb_prop in E. destruct E as [E E3]. apply andb_prop in E. destruct E as [E1 E2]. apply Z.eqb_eq in E2, E3. specialize (L3 E1).
    destruct (Z.eq_dec v 0) as [-> |NV]; [rewrite Z.gcd_0_r in A; lia|]. destruct (BIG u v NV); lia. }
  rewrite CD. cbn [of_option bind]. exists (q * v).
  assert (PF : 0 <= u -> 0 <= v -> 0 <= q * v) by (intros H1 H2; specialize (GP H1 H2); pose proof (Z.gcd_nonneg u v); assert (0 <= q) by nia; nia).
  assert (FT : fits t (q * v)).
  { unfold fits in *. destruct (sgn t); [specialize (L3 eq_refl); lia|]. specialize (L4 eq_refl). specialize (PF ltac:(lia) ltac:(lia)). lia. }
  rewrite (arith_fits t _ FT) by lia. split; [reflexivity|]. split; [|split; [exact LM|intros H1 H2; specialize (PF H1 H2); lia]].
  split; [|split].
  - apply Z.divide_abs_r. rewrite LM. apply Z.divide_lcm_l.
  - apply Z.divide_factor_r.
  - intros d X Y. apply Z.divide_abs_l. rewrite LM. now apply Z.lcm_least.
Qed.
Print Assumptions C96_lcm_partial.

(** The missing part: the least common multiple of 0 and 0 divides by zero, and the answer may be negative. *)
Theorem C96_lcm_refuted : (forall t, lcm t 0 0 = Undef) /\ lcm (Ity true 32) (-4) 6 = Val (-12) /\ lcm (Ity true 32) 4 (-6) = Val 12.
Proof. repeat split; reflexivity. Qed.
Print Assumptions C96_lcm_refuted.

(** Powers with a nonnegative exponent other than the largest of its type: the value is the power, in the arithmetic of the type. Signed: defined exactly if
    the power is a value of the type (no intermediate overflow), unsigned: the power modulo 2 to the width. *)
Theorem C96_pow_partial t tn b e : 2 <= bits t -> fits t b -> 0 <= e < hi tn -> pow_integral t tn b e = of_option (arith t (b ^ e)).
Proof.
  intros B F (E1 & E2). pose proof (limits t B) as (L1 & L2 & _ & _).
  assert (A1 : arith t b = Some b) by (apply arith_fits; [exact F|lia]). assert (A0 : arith t 1 = Some 1) by (apply arith_fits; [unfold fits; lia|lia]).
  unfold pow_integral. destruct (Z.eqb_spec e 3) as [-> |N3].
  - assert (S2 : arith t (b * b) = arith t (b ^ 2)) by (f_equal; ring). rewrite S2. destruct (arith t (b ^ 2)) as [c|] eqn:C; cbn [of_option bind].
    + rewrite (arith_mul t _ _ _ _ C A1). do 2 f_equal. ring.
    + rewrite (pow_undefined t b 2 3) by (try assumption; lia). reflexivity.
  - destruct (Z.eqb_spec e 2) as [-> |N2]; [do 2 f_equal; ring|]. destruct (Z.eqb_spec e 1) as [-> |N1]; [rewrite Z.pow_1_r, A1; reflexivity|].
    destruct (Z.eqb_spec e 0) as [-> |N0]; [rewrite Z.pow_0_r, A0; reflexivity|]. replace (e =? hi tn) with false by (symmetry; apply Z.eqb_neq; lia).
    replace (e <? 0) with false by (symmetry; apply Z.ltb_ge; lia).
    rewrite (pow_rec_ok t b B _ 1 0 b 1 e) by (try rewrite Z.pow_1_r; try rewrite Z.pow_0_r; try assumption; lia). do 3 f_equal. lia.
Qed.
Print Assumptions C96_pow_partial.
Theorem C96_pow_signed t tn b e : 2 <= bits t -> sgn t = true -> fits t b -> 0 <= e < hi tn ->
  (fits t (b ^ e) -> pow_integral t tn b e = Val (b ^ e)) /\ (~ fits t (b ^ e) -> pow_integral t tn b e = Undef).
Proof.
  intros B S F E. rewrite (C96_pow_partial t tn b e B F E). split; intros H.
  - rewrite (arith_fits t _ H) by lia. reflexivity.
  - rewrite arith_signed by exact S. unfold fits in H. destruct (Z.leb_spec (lo t) (b ^ e)), (Z.leb_spec (b ^ e) (hi t)); try reflexivity. exfalso. apply H. lia.
Qed.
Print Assumptions C96_pow_signed.
Theorem C96_pow_unsigned t tn b e : 2 <= bits t -> sgn t = false -> fits t b -> 0 <= e < hi tn -> pow_integral t tn b e = Val ((b ^ e) mod 2 ^ bits t).
Proof. intros B S F E. rewrite (C96_pow_partial t tn b e B F E). unfold arith. now rewrite S. Qed.
Print Assumptions C96_pow_unsigned.

(** The missing part: every negative exponent gives 0, even for bases 1 and -1 whose inverses are integers, and the largest exponent
    gives the largest value, even for bases 0, 1 and -1. *)
Theorem C96_pow_refuted t tn b : 3 <= bits tn -> sgn tn = true ->
  (forall e, e < 0 -> pow_integral t tn b e = Val 0) /\ (pow_integral t tn b (hi tn) = if hi tn =? 3 then pow_integral t tn b 3 else Val (hi t)).
Proof.
  intros B S. assert (H : 3 <= hi tn) by (unfold hi; rewrite S; assert (2 ^ 2 <= 2 ^ (bits tn - 1)) by (apply Z.pow_le_mono_r; lia); change (2 ^ 2) with 4 in *; lia).
  split.
  - intros e E. unfold pow_integral. destruct (Z.eqb_spec e 3); [lia|]. destruct (Z.eqb_spec e 2); [lia|]. destruct (Z.eqb_spec e 1); [lia|]. destruct (Z.eqb_spec e 0); [lia|].
    destruct (Z.eqb_spec e (hi tn)); [lia|]. destruct (Z.ltb_spec e 0); [reflexivity|lia].
  - destruct (Z.eqb_spec (hi tn) 3) as [-> |N]; [reflexivity|]. unfold pow_integral. rewrite Z.eqb_refl. destruct (Z.eqb_spec (hi tn) 3); [lia|]. destruct (Z.eqb_spec (hi tn) 2); [lia|].
    destruct (Z.eqb_spec (hi tn) 1); [lia|]. destruct (Z.eqb_spec (hi tn) 0); [lia|]. reflexivity.
Qed.
Print Assumptions C96_pow_refuted.

(** clamp answers the point of the interval nearest to x; min and max the smaller and larger argument; abs the magnitude, undefined for the lowest value. *)
Theorem C96_clamp x a b : a <= b -> a <= clamp x a b <= b /\ (forall y, a <= y <= b -> Z.abs (x - clamp x a b) <= Z.abs (x - y)) /\ (a <= x <= b -> clamp x a b = x).
Proof. intros H. unfold clamp. destruct (Z.ltb_spec x a); [repeat split; intros; lia|]. destruct (Z.ltb_spec b x); repeat split; intros; lia. Qed.
Print Assumptions C96_clamp.
Theorem C96_minmax x y : zmin x y = Z.min x y /\ zmax x y = Z.max x y.
Proof. unfold zmin, zmax. destruct (Z.ltb_spec y x), (Z.ltb_spec x y); lia. Qed.
Print Assumptions C96_minmax.
Theorem C96_abs t x : 2 <= bits t -> fits t x -> (x <> lo t \/ sgn t = false -> zabs t x = Some (Z.abs x)) /\ (x = lo t -> sgn t = true -> zabs t x = None).
Proof.
  intros B F. pose proof (limits t B) as (L1 & L2 & L3 & L4). unfold fits in F. unfold zabs. split.
  - intros H. destruct (Z.ltb_spec x 0) as [N|N]; [|f_equal; lia]. rewrite arith_fits; [f_equal; lia| |lia]. unfold fits. destruct (sgn t); [specialize (L3 eq_refl)|specialize (L4 eq_refl)]; destruct H; try discriminate; lia.
  - intros -> S. specialize (L3 S). destruct (Z.ltb_spec (lo t) 0); [|lia]. rewrite arith_signed by exact S. destruct (Z.leb_spec (- lo t) (hi t)); [lia|]. now rewrite andb_false_r.
Qed.
Print Assumptions C96_abs.

(** The result type is one of the argument types: the widest signed one if there is any, else the widest. *)
Theorem C96_result a l : let r := op_result a l in In r (a :: l) /\
  (sgn r = true <-> exists t, In t (a :: l) /\ sgn t = true) /\ (forall t, In t (a :: l) -> sgn t = sgn r -> bits t <= bits r).
Proof.
  cbv zeta. revert a. induction l as [|b l IH]; intros a.
  - cbn. split; [now left|]. split; [|intros t [<-|[]] _; lia]. split; [intros; exists a; tauto|intros (t & [<-|[]] & S); exact S].
  - specialize (IH b). destruct IH as (I & S & M). change (op_result a (b :: l)) with (binary_op_result a (op_result b l)). set (r := op_result b l) in *.
    assert (K : In (binary_op_result a r) [a; r]) by (unfold binary_op_result; destruct (sgn a && sgn r), (sgn a), (sgn r), (bits r <=? bits a); cbn; tauto).
    assert (G : sgn (binary_op_result a r) = sgn a || sgn r) by (unfold binary_op_result; destruct (sgn a) eqn:A, (sgn r) eqn:R; cbn; destruct (bits r <=? bits a); congruence).
    split; [|split].
    + destruct K as [<-|[<-|[]]]; [now left|now right].
    + rewrite G, orb_true_iff, S. split.
      * intros [H|(t & T & H)]; [exists a; split; [now left|exact H]|exists t; split; [now right|exact H]].
      * intros (t & [<-|T] & H); [now left|right; eauto].
    + assert (W : forall t, (t = a \/ sgn t = sgn r /\ bits t <= bits r) -> sgn t = sgn (binary_op_result a r) -> bits t <= bits (binary_op_result a r)).
      { intros t T. unfold binary_op_result. destruct (sgn a) eqn:A, (sgn r) eqn:R; cbn [andb]; destruct (Z.leb_spec (bits r) (bits a)); destruct T as [-> |[T1 T2]]; intros E; try lia; congruence. }
      intros t [<-|T] E; [apply W; [now left|exact E]|]. apply W; [|exact E]. right.
      assert (SR : sgn t = sgn r); [|split; [exact SR|now apply M]].
      destruct (sgn t) eqn:TS; [symmetry; apply S; eauto|]. rewrite G in E. destruct (sgn a), (sgn r); try discriminate; reflexivity.
Qed.
Print Assumptions C96_result.
(** It holds every argument exactly if every unsigned argument type is narrower than a signed result. *)
Theorem C96_result_holds_partial a l : (forall t, In t (a :: l) -> 1 <= bits t) ->
  ((forall t, In t (a :: l) -> included t (op_result a l)) <->
   (sgn (op_result a l) = true -> forall t, In t (a :: l) -> sgn t = false -> bits t < bits (op_result a l))).
Proof.
  intros P. destruct (C96_result a l) as (I & S & M). set (r := op_result a l) in *. pose proof (P r I) as PR. split.
  - intros H R t T U. specialize (H t T). apply fits_included in H; [|now apply P|exact PR]. now rewrite U, R in H.
  - intros H t T. apply fits_included; [now apply P|exact PR|]. destruct (sgn t) eqn:TS.
    + assert (R : sgn r = true) by (apply S; eauto). split; [exact R|]. apply M; congruence.
    + destruct (sgn r) eqn:R; [now apply H|apply M; congruence].
Qed.
Print Assumptions C96_result_holds_partial.
(** The missing part: the "most appropriate" type of an 8 bit signed and a 64 bit unsigned number has 8 bits. *)
Theorem C96_result_refuted : op_result (Ity true 8) [Ity false 64] = Ity true 8 /\ op_result (Ity false 64) [Ity true 8; Ity false 32] = Ity true 8 /\
  ~ included (Ity false 64) (op_result (Ity true 8) [Ity false 64]).
Proof. repeat split. intros H. specialize (H 200). unfold fits, lo, hi in H. cbn in H. lia. Qed.
Print Assumptions C96_result_refuted.

(** Concrete cases. *)
Example C96_ex : gcd (Ity false 32) 48 36 = Val 12 /\ gcd (Ity false 32) 36 48 = Val 12 /\ lcm (Ity true 32) 46340 46341 = Val 2147441940 /\ ~ overflowing (Ity true 32) 48 36 /\
  pow_integral (Ity true 32) (Ity true 32) (-2) 31 = Val (-2147483648) /\ pow_integral (Ity true 32) (Ity true 32) 2 31 = Undef /\ pow_integral (Ity false 32) (Ity true 32) 3 21 = Val (3 ^ 21 mod 2 ^ 32) /\
  pow_integral (Ity true 32) (Ity true 32) 1 (-1) = Val 0 /\ pow_integral (Ity true 32) (Ity true 8) 1 127 = Val 2147483647 /\ clamp 7 0 5 = 5 /\ zabs (Ity true 32) (-2147483648) = None.
Proof. split; [reflexivity|]. split; [reflexivity|]. split; [vm_compute; reflexivity|]. split; [unfold overflowing; cbn; intros (_ & [[H _]|[H _]]); discriminate|]. repeat split; reflexivity. Qed.
