From mathcomp Require Import all_ssreflect all_algebra.
From Verif Require Import LwModel LwSpec.
Import GRing.Theory.
Set Implicit Arguments.
Unset Strict Implicit.
Local Open Scope ring_scope.

Section P.
Variable F : fieldType.
Variable n : nat.
Local Notation place := (place F n).

Definition move (p : place) (m : motion F n) : place :=
  match m with Translate t => translate p t | Rotate r => rotate p r | Scale s => scale p s end.

Definition good (p : place) : Prop := i2wSinv p \in unitmx /\ i2wRinv p *m (i2wRinv p)^T = 1%:M.

Lemma orth_unit (r : 'M[F]_n) : r *m r^T = 1%:M -> r \in unitmx /\ invmx r = r^T.
Proof.
move=> H. have [U _] := mulmx1_unit H. split=> //.
by rewrite -[RHS](mulKmx U) H mulmx1.
Qed.
Lemma orth_sym (r : 'M[F]_n) : r *m r^T = 1%:M -> r^T *m r = 1%:M.
Proof. exact: mulmx1C. Qed.

Lemma construct_good d : d != 0 -> good (construct n d).
Proof.
move=> H; split=> /=; last by rewrite trmx1 mulmx1.
by rewrite scalemx1 unitmxE det_scalar unitfE expf_neq0 // invr_eq0.
Qed.
Lemma reset_good polar p m : (polar (ulsubmx m)^T).2 \in unitmx -> orthogonal (polar (ulsubmx m)^T).1 -> good (reset polar p m).
Proof.
rewrite /reset /decompose -trmx_ulsub => U O; split=> /=; first by rewrite unitmx_inv.
by rewrite trmxK; exact: orth_sym.
Qed.
Lemma move_good p m : legitimate m -> good p -> good (move p m).
Proof.
case: m => [t|r|s] /= L [U O]; split=> //=.
- by rewrite trmx_mul trmxK mulmxA -(mulmxA r^T) O mulmx1; exact: orth_sym.
- by rewrite unitmx_mul unitmx_inv L U.
Qed.
Lemma moves_good ms p : (forall m, List.In m ms -> legitimate m) -> good p -> good (foldl move p ms).
Proof.
elim: ms p => //= m ms IH p L G. apply: IH; first by move=> m' H; apply: L; right.
by apply: move_good => //; apply: L; left.
Qed.

Lemma world_index c p x : good p -> indexToWorld c p (worldToIndex c p x) = x.
Proof.
move=> [U O]. have [U2 I] := orth_unit O.
rewrite /indexToWorld /worldToIndex; case: c.
- by rewrite subrK mulmxK // mulmxK // subrK.
- by rewrite mulmxK // -mulmxA O mulmx1 subrK.
Qed.
Lemma index_world c p X : good p -> worldToIndex c p (indexToWorld c p X) = X.
Proof.
move=> [U O]. have [U2 I] := orth_unit O. have O2 := orth_sym O.
rewrite /indexToWorld /worldToIndex; case: c.
- by rewrite addrK mulmxKV // mulmxKV // addrK.
- by rewrite addrK -(mulmxA _ (i2wRinv p)^T) O2 mulmx1 mulmxKV.
Qed.

(** Position of an index, without the category. *)
Lemma position c p X : good p ->
  indexToWorld c p X = (X + (if c then half F n else 0)) *m invmx (i2wSinv p) *m (i2wRinv p)^T + i2wT p.
Proof.
move=> [U O]. have [U2 I] := orth_unit O. rewrite /indexToWorld; case: c; first by rewrite I.
by rewrite addr0.
Qed.

Lemma difference c p X Y : good p ->
  indexToWorld c p Y - indexToWorld c p X = (Y - X) *m invmx (i2wSinv p) *m (i2wRinv p)^T.
Proof.
move=> G. rewrite !(position _ _ G) opprD addrACA subrr addr0.
set h := (if c then _ else _). by rewrite -!mulmxBl opprD addrACA subrr addr0.
Qed.

Lemma inv_mul (a b : 'M[F]_n) : a \in unitmx -> b \in unitmx -> invmx (a *m b) = invmx b *m invmx a.
Proof.
move=> A B. have U : a *m b \in unitmx by rewrite unitmx_mul A B.
rewrite -[RHS](mulKmx U) (mulmxA (a *m b)) (mulmxK B) (mulmxV A) mulmx1 //.
Qed.

Lemma inv_scaled (p : place) s : i2wSinv p \in unitmx -> s \in unitmx ->
  invmx (invmx s *m i2wSinv p) = invmx (i2wSinv p) *m s.
Proof. by move=> U S; rewrite inv_mul ?unitmx_inv // invmxK. Qed.

(** Velocities: scale and rotation collected since p0 act on the difference of positions. *)
Definition follows (S0 R0 : 'M[F]_n) (p : place) : Prop :=
  [/\ good p, invmx (i2wSinv p) = S0 *m i2wShat p & (i2wRinv p)^T = R0 *m i2wRhat p].

Lemma move_follows S0 R0 p m : legitimate m -> follows S0 R0 p -> follows S0 R0 (move p m).
Proof.
move=> L [G HS HR]. split; first exact: move_good.
- case: m L => [t|r|s] //= L. case: G => U O. by rewrite inv_scaled // HS mulmxA.
- case: m L => [t|r|s] //= L. by rewrite trmx_mul trmxK HR mulmxA.
Qed.
Lemma moves_follow S0 R0 ms p : (forall m, List.In m ms -> legitimate m) -> follows S0 R0 p -> follows S0 R0 (foldl move p ms).
Proof.
elim: ms p => //= m ms IH p L G. apply: IH; first by move=> m' H; apply: L; right.
by apply: move_follows => //; apply: L; left.
Qed.

Lemma uniform_hat ms p : (forall m, List.In m ms -> uniform m) -> (exists k, i2wShat p = k%:M) ->
  exists k, i2wShat (foldl move p ms) = k%:M.
Proof.
elim: ms p => //= m ms IH p L [k K]. apply: IH; first by move=> m' H; apply: L; right.
have := L m (or_introl erefl). case: m L => [t|r|s] L /=; [by exists k|by exists k|].
by move=> [k' [_ ->]]; exists (k * k'); rewrite K -scalar_mxM.
Qed.

(** The cell size. *)
Definition sized (p : place) : Prop := good p /\ invmx (i2wSinv p) = (dx p)%:M.
Lemma s00_scalar k : (0 < n)%N -> s00 (k%:M : 'M[F]_n) = k.
Proof. by move=> N; rewrite /s00 insubT mxE eqxx mulr1n. Qed.
Lemma move_sized p m : (0 < n)%N -> legitimate m -> uniform m -> sized p -> sized (move p m).
Proof.
move=> N L V [G S]; split; first exact: move_good.
case: m L V => [t|r|s] //= L [k [K E]]. subst s. case: G => U O.
by rewrite inv_scaled // S -scalar_mxM s00_scalar.
Qed.
Lemma moves_sized ms p : (0 < n)%N -> (forall m, List.In m ms -> legitimate m /\ uniform m) -> sized p -> sized (foldl move p ms).
Proof.
move=> N. elim: ms p => //= m ms IH p L G. apply: IH; first by move=> m' H; apply: L; right.
by have [A B] := L m (or_introl erefl); apply: move_sized.
Qed.
Lemma construct_sized d : d != 0 -> sized (construct n d).
Proof.
move=> D; split; first exact: construct_good. rewrite /= scalemx1 invmx_scalar invrK //.
Qed.
End P.

Section Matrix.
Variable F : fieldType.
Variable n : nat.
Lemma transformation_block (p : place F n) :
  transformation p = block_mx (invmx (i2wSinv p) *m (i2wRinv p)^T) 0 (i2wT p) 1%:M.
Proof.
by rewrite /transformation !mulmx_block !(mulmx0, mul0mx, mulmx1, mul1mx, addr0, add0r).
Qed.
Lemma reset_block polar (p : place F n) A t :
  reset polar p (block_mx A 0 t 1%:M) =
  Place t (polar A^T).1^T (invmx (polar A^T).2) 1%:M 1%:M (dx p).
Proof. by rewrite /reset /decompose /= tr_block_mx block_mxKul block_mxKur trmxK. Qed.
End Matrix.

(** A quarter turn of the plane, and a stretch along the first axis. *)
Definition quarter : 'M[rat]_2 := \matrix_(i, j) (if i == j then 0 else if (i < j)%N then -1 else 1).
Definition stretch : 'M[rat]_2 := \matrix_(i, j) (if i == j then (if i == ord0 then 2%:Q else 1) else 0).
Definition shrink : 'M[rat]_2 := \matrix_(i, j) (if i == j then (if i == ord0 then 2%:Q^-1 else 1) else 0).
Lemma quarter_orth : orthogonal quarter.
Proof.
apply/matrixP => i j. rewrite !mxE !big_ord_recl big_ord0 !mxE.
by case: i => [[|[|i]] Hi]; case: j => [[|[|j]] Hj].
Qed.
Lemma stretch_shrink : stretch *m shrink = 1%:M.
Proof.
apply/matrixP => i j. rewrite !mxE !big_ord_recl big_ord0 !mxE.
by case: i => [[|[|i]] Hi]; case: j => [[|[|j]] Hj].
Qed.
Lemma stretch_unit : stretch \in unitmx.
Proof. by have [] := mulmx1_unit stretch_shrink. Qed.
