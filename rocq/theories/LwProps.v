(** * C109: placing a level set in the world *)

From mathcomp Require Import all_ssreflect all_algebra.
From Verif Require Import LwModel LwSpec LwProofs.
Import GRing.Theory.
Set Implicit Arguments.
Unset Strict Implicit.
Local Open Scope ring_scope.

Section Props.
Variable F : fieldType.
Variable n : nat.

(** After any sequence of legitimate motions of a new level set of cell size d, or of one whose
    transformation was set, worldToIndex and indexToWorld are inverse to each other. *)
Definition placed (p : place F n) : Prop :=
  exists p0 ms,
    [/\ (exists d, d != 0 /\ p0 = construct n d) \/
        (exists polar q m, [/\ orthogonal (polar (ulsubmx m)^T).1, (polar (ulsubmx m)^T).2 \in unitmx
                             & p0 = reset polar q m]),
        (forall m, List.In m ms -> legitimate m) & p = foldl (@move F n) p0 ms].
Lemma placed_good p : placed p -> good p.
Proof.
move=> [p0 [ms [H L ->]]]. apply: moves_good => //.
case: H => [[d [D ->]]|[polar [q [m [O U ->]]]]]; [exact: construct_good | exact: reset_good].
Qed.

Theorem C109_roundtrip c (p : place F n) (x X : 'rV[F]_n) : placed p ->
  indexToWorld c p (worldToIndex c p x) = x /\ worldToIndex c p (indexToWorld c p X) = X.
Proof. by move/placed_good => G; rewrite world_index // index_world. Qed.

(** A translation moves every position by the vector; a rotation turns it about the position of the
    index origin; a scaling by one factor stretches it about that position; a scaling by a matrix does
    so along the level set's own axes. *)
Theorem C109_translate c (p : place F n) t X :
  indexToWorld c (translate p t) X = indexToWorld c p X + t.
Proof. by case: c; rewrite /indexToWorld /= addrA. Qed.
Lemma origin (p : place F n) : indexToWorld false p 0 = i2wT p.
Proof. by rewrite /indexToWorld !mul0mx add0r. Qed.
Theorem C109_rotate c (p : place F n) r X : placed p -> orthogonal r ->
  indexToWorld c (rotate p r) X = about (indexToWorld false p 0) r (indexToWorld c p X).
Proof.
move/placed_good => G O. have G2 : good (rotate p r) by apply: (@move_good _ _ p (Rotate r)).
by rewrite /about origin !position // addrK /= trmx_mul trmxK mulmxA.
Qed.
Theorem C109_scale c (p : place F n) s X : placed p -> s \in unitmx ->
  indexToWorld c (scale p s) X =
  about (indexToWorld false p 0) (i2wRinv p *m s *m (i2wRinv p)^T) (indexToWorld c p X).
Proof.
move/placed_good => G U. have G2 : good (scale p s) by apply: (@move_good _ _ p (Scale s)).
rewrite /about origin !position // addrK /=. case: G => V O.
rewrite inv_scaled // !mulmxA. by rewrite -(mulmxA _ (i2wRinv p)^T (i2wRinv p)) (orth_sym O) mulmx1.
Qed.
Theorem C109_scale_uniform c (p : place F n) k X : placed p -> k != 0 ->
  indexToWorld c (scale_by p k) X = about (indexToWorld false p 0) k%:M (indexToWorld c p X).
Proof.
move=> H K. rewrite /scale_by scalemx1 C109_scale //; last by rewrite unitmxE det_scalar unitfE expf_neq0.
have [V O] := placed_good H. by rewrite mul_mx_scalar -scalemxAl O scalemx1.
Qed.

(** The cell size stays the length of one index step, as long as scalings are uniform. *)
Theorem C109_size_partial c d ms (X : 'rV[F]_n) i : d != 0 ->
  (forall m, List.In m ms -> legitimate m /\ uniform m) ->
  let p := foldl (@move F n) (construct n d) ms in
  let e := indexToWorld c p (X + delta_mx 0 i) - indexToWorld c p X in
  e *m e^T = (dx p ^+ 2)%:M.
Proof.
move=> D L p e. have N : (0 < n)%N by exact: leq_ltn_trans (leq0n i) (ltn_ord i).
have [G S] : sized p by apply: moves_sized => //; exact: construct_sized.
have [U O] := G.
rewrite /e difference // addrC addKr S mul_mx_scalar -scalemxAl linearZ /= -scalemxAl -scalemxAr scalerA.
rewrite trmx_mul trmxK mulmxA -(mulmxA _ (i2wRinv p)^T) (orth_sym O) mulmx1 trmx_delta mul_delta_mx.
by apply/matrixP => a b; rewrite !ord1 !mxE !eqxx /= mulr1 mulr1n expr2.
Qed.

(** The matrix returned agrees with indexToWorld on homogeneous coordinates. *)
Theorem C109_matrix (p : place F n) X :
  row_mx X 1%:M *m transformation p = row_mx (indexToWorld false p X) 1%:M.
Proof.
by rewrite transformation_block mul_row_block !(mulmx0, mul1mx, add0r) mulmxA.
Qed.

(** Setting a transformation whose linear part is S·Rᵀ (its transpose being R·S) yields S·R: it is kept
    when the rotation is its own inverse, and only then. *)
Theorem C109_reset polar (p : place F n) A t :
  (polar A^T).2 \in unitmx -> (polar A^T).2^T = (polar A^T).2 -> (polar A^T).1 *m (polar A^T).2 = A^T ->
  A = (polar A^T).2 *m (polar A^T).1^T /\
  transformation (reset polar p (block_mx A 0 t 1%:M)) =
  block_mx ((polar A^T).2 *m (polar A^T).1) 0 t 1%:M.
Proof.
move=> U Y E. split; first by have := congr1 (@trmx _ _ _) E; rewrite trmx_mul trmxK Y => /esym.
by rewrite reset_block transformation_block /= invmxK trmxK.
Qed.
Theorem C109_reset_partial polar (p : place F n) A t :
  (polar A^T).2 \in unitmx -> (polar A^T).2^T = (polar A^T).2 -> (polar A^T).1 *m (polar A^T).2 = A^T ->
  (transformation (reset polar p (block_mx A 0 t 1%:M)) = block_mx A 0 t 1%:M <->
   (polar A^T).1^T = (polar A^T).1).
Proof.
move=> U Y E. have [EA ->] := C109_reset p t U Y E. split.
- move/eq_block_mx => [H _ _ _]. apply: (can_inj (mulKmx U)). by rewrite H -EA.
- by move=> H; rewrite -[in LHS]H -EA.
Qed.

(** getMaterialVelocity turns a stored velocity as the motions since construction turn the difference of
    two positions. *)
Theorem C109_velocity c d ms (X Y : 'rV[F]_n) : d != 0 -> (forall m, List.In m ms -> legitimate m) ->
  let p0 := construct n d in
  let p := foldl (@move F n) p0 ms in
  materialVelocity p (indexToWorld c p0 Y - indexToWorld c p0 X) = indexToWorld c p Y - indexToWorld c p X.
Proof.
move=> D L p0 p. have G0 : good p0 by exact: construct_good.
have [G HS HR] : follows (invmx (i2wSinv p0)) 1%:M p.
  by apply: moves_follow => //; split; rewrite //= ?mulmx1 ?trmx1.
rewrite !difference // HS HR /materialVelocity mul1mx trmx1 mulmx1 !mulmxA //.
Qed.
(** Since a transformation was set, it does so when the scalings are uniform. *)
Theorem C109_velocity_partial c polar q m0 ms (X Y : 'rV[F]_n) :
  orthogonal (polar (ulsubmx m0)^T).1 -> (polar (ulsubmx m0)^T).2 \in unitmx ->
  (forall m, List.In m ms -> legitimate m /\ uniform m) ->
  let p0 := reset polar q m0 in
  let p := foldl (@move F n) p0 ms in
  materialVelocity p (indexToWorld c p0 Y - indexToWorld c p0 X) = indexToWorld c p Y - indexToWorld c p X.
Proof.
move=> O U L p0 p. have G0 : good p0 by exact: reset_good.
have [G HS HR] : follows (invmx (i2wSinv p0)) (i2wRinv p0)^T p.
  by apply: moves_follow => [m H|]; [case: (L m H) | split; rewrite //= ?mulmx1].
have [k K] : exists k, i2wShat p = k%:M.
  by apply: uniform_hat => [m H|]; [case: (L m H) | exists 1].
rewrite !difference // HS HR /materialVelocity K !mul_mx_scalar !mulmxA.
by rewrite -!scalemxAr -!scalemxAl.
Qed.
End Props.
Print Assumptions C109_roundtrip.
Print Assumptions C109_translate.
Print Assumptions C109_rotate.
Print Assumptions C109_scale.
Print Assumptions C109_scale_uniform.
Print Assumptions C109_size_partial.
Print Assumptions C109_matrix.
Print Assumptions C109_reset.
Print Assumptions C109_reset_partial.
Print Assumptions C109_velocity.
Print Assumptions C109_velocity_partial.

(** The pair (L, 1) is the polar decomposition of a rotation. *)
Definition turn_only (l : 'M[rat]_2) : 'M[rat]_2 * 'M[rat]_2 := (l, 1%:M).

(** A quarter turn is set the other way round. *)
Theorem C109_reset_refuted : exists polar (p : place rat_fieldType 2) A,
  [/\ orthogonal A, orthogonal (polar A^T).1, (polar A^T).2 = 1%:M, (polar A^T).1 *m (polar A^T).2 = A^T
    & transformation (reset polar p (block_mx A 0 0 1%:M)) <> block_mx A 0 0 1%:M].
Proof.
exists turn_only, (@construct rat_fieldType 2 1), quarter. have O := quarter_orth. split=> //.
- by rewrite /orthogonal trmxK; exact: orth_sym.
- by rewrite mulmx1.
- rewrite (C109_reset_partial (polar := turn_only)) /=; first last.
  + by rewrite mulmx1.
  + by rewrite trmx1.
  + by rewrite unitmx1.
  by rewrite trmxK => /matrixP /(_ 0 1); rewrite !mxE.
Qed.
Print Assumptions C109_reset_refuted.

(** Setting a transformation leaves the cell size as it was. *)
Theorem C109_size_refuted : exists polar (p : place rat_fieldType 2),
  let A := 2%:Q%:M in
  [/\ polar A^T = (1%:M, A), dx p = 1, dx (reset polar p (block_mx A 0 0 1%:M)) = 1
    & forall X i, indexToWorld false (reset polar p (block_mx A 0 0 1%:M)) (X + delta_mx 0 i) -
        indexToWorld false (reset polar p (block_mx A 0 0 1%:M)) X = 2%:Q *: delta_mx 0 i].
Proof.
pose f (l : 'M[rat]_2) := (1%:M : 'M[rat]_2, 2%:Q%:M : 'M[rat]_2).
exists f, (@construct rat_fieldType 2 1). split=> // X i.
rewrite difference; first by rewrite reset_block /= invmxK trmxK mulmx1 addrC addKr mul_mx_scalar.
rewrite reset_block; split=> /=; last by rewrite trmxK trmx1 mulmx1.
by rewrite unitmx_inv unitmxE det_scalar unitfE.
Qed.
Print Assumptions C109_size_refuted.

(** Rotations that are no rotations: a matrix that is not orthogonal spoils the round trip. *)
Theorem C109_skew_refuted : exists X : 'rV[rat]_2,
  stretch \in unitmx /\
  worldToIndex false (rotate (@construct rat_fieldType 2 1) stretch) (indexToWorld false (rotate (@construct rat_fieldType 2 1) stretch) X) <> X.
Proof.
exists (delta_mx 0 0). split; first exact: stretch_unit.
rewrite /worldToIndex /indexToWorld /= addr0 subr0 scalemx1 invr1 invmx_scalar invr1 !mulmx1 trmxK.
move/matrixP/(_ 0 0). rewrite !(mxE, big_ord_recl, big_ord0) /=. by [].
Qed.
Print Assumptions C109_skew_refuted.

(** A stretch after setting a quarter turn: the velocity is stretched along the wrong axis. *)
Theorem C109_velocity_refuted : exists (X Y : 'rV[rat]_2),
  let p0 := reset turn_only (@construct rat_fieldType 2 1) (block_mx quarter 0 0 1%:M) in
  let p := scale p0 stretch in
  materialVelocity p (indexToWorld false p0 Y - indexToWorld false p0 X) <>
  indexToWorld false p Y - indexToWorld false p X.
Proof.
exists 0, (delta_mx 0 0) => p0 p.
have G0 : good p0.
  by apply: reset_good; rewrite /= ?unitmx1 // block_mxKul /orthogonal trmxK; apply: orth_sym; exact: quarter_orth.
have G : good p by apply: (@move_good _ _ p0 (Scale stretch)) => //; exact: stretch_unit.
rewrite !difference // /p /p0 /materialVelocity reset_block /= !subr0.
rewrite !(invmx1, mulmx1, mul1mx, invmxK, trmxK).
move/matrixP/(_ 0 1). rewrite !(mxE, big_ord_recl, big_ord0) /=. by [].
Qed.
Print Assumptions C109_velocity_refuted.

(** A level set turned, moved and stretched. *)
Definition ms_ex : seq (motion rat_fieldType 2) := [:: Rotate quarter; Translate (const_mx 3%:Q); Scale stretch; Scale 5%:Q%:M].
Lemma C109_ex_legit m : List.In m ms_ex -> legitimate m.
Proof.
move=> /= [<-|[<-|[<-|[<-|[]]]]] //=; [exact: quarter_orth | exact: stretch_unit |].
by rewrite unitmxE det_scalar unitfE.
Qed.
Example C109_ex : placed (foldl (@move rat_fieldType 2) (@construct rat_fieldType 2 2%:Q) ms_ex) /\
  dx (foldl (@move rat_fieldType 2) (@construct rat_fieldType 2 2%:Q) ms_ex) = 20%:Q.
Proof.
split; first by exists (@construct rat_fieldType 2 2%:Q), ms_ex; split=> //; [left; exists 2%:Q | exact: C109_ex_legit].
by rewrite /= /s00 insubT !mxE.
Qed.
