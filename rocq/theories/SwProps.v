(** * C111: placing a sparse grid in the world *)
From mathcomp Require Import all_ssreflect all_algebra.
From Verif Require Import LwModel LwSpec LwProofs SwModel SwSpec SwProofs.
Import GRing.Theory.
Set Implicit Arguments.
Unset Strict Implicit.
Local Open Scope ring_scope.

Section Props.
Variable F : fieldType.
Variable n : nat.

(** Grids reached from an affine placement by legitimate motions. *)
Definition gplaced (m : 'M[F]_(n + 1)) : Prop :=
  exists m0 m1 gs, [/\ affine_matrix m1, (forall g, List.In g gs -> glegitimate g)
                     & m = foldl (@gmove F n) (resetTransformation m0 m1) gs].
Lemma gplaced_affine m : gplaced m -> affine_matrix m.
Proof. by move=> [m0 [m1 [gs [A L ->]]]]; apply: gmoves_affine. Qed.

(** worldToIndex and indexToWorld are inverse to each other. *)
Theorem C111_roundtrip (m : 'M[F]_(n + 1)) (x X : 'rV[F]_n) : gplaced m ->
  gindexToWorld m (gworldToIndex m x) = x /\ gworldToIndex m (gindexToWorld m X) = X.
Proof.
move/gplaced_affine => [A [t [U ->]]].
rewrite /gindexToWorld /gworldToIndex inverse_block // !apply_block mulNmx.
by rewrite -mulmxBl mulmxKV // subrK; split=> //; rewrite -mulmxBl addrK mulmxK.
Qed.

(** translate moves every position; rotate and scale act on the index before it is placed. *)
Theorem C111_translate (m : 'M[F]_(n + 1)) t X : gplaced m ->
  gindexToWorld (gtranslate m t) X = gindexToWorld m X + t.
Proof.
move/gplaced_affine => [A [v [U ->]]].
rewrite /gtranslate mulmx_block !(mulmx0, mul0mx, mulmx1, mul1mx, addr0, add0r).
by rewrite /gindexToWorld !apply_block addrA.
Qed.
Theorem C111_rotate (m : 'M[F]_(n + 1)) r X :
  gindexToWorld (grotate m r) X = gindexToWorld m (X *m r^T).
Proof.
by rewrite /gindexToWorld /apply /grotate mulmxA mul_row_block !(mulmx0, mulmx1, addr0, add0r).
Qed.
Theorem C111_scale (m : 'M[F]_(n + 1)) s X :
  gindexToWorld (gscale m s) X = gindexToWorld m (\row_j (X 0 j * s 0 j)).
Proof.
rewrite /gindexToWorld /apply /gscale mulmxA mul_row_block !(mulmx0, mulmx1, addr0, add0r) mul_mx_diag.
by congr (lsubmx (row_mx _ _ *m _)); apply/matrixP => i j; rewrite !mxE !ord1.
Qed.
(** So the position of index 0 stays. *)
Theorem C111_origin (m : 'M[F]_(n + 1)) r s :
  gindexToWorld (grotate m r) 0 = gindexToWorld m 0 /\ gindexToWorld (gscale m s) 0 = gindexToWorld m 0.
Proof.
rewrite C111_rotate C111_scale mul0mx; split=> //; congr gindexToWorld.
by apply/matrixP => i j; rewrite !mxE mul0r.
Qed.

(** voxelSize(i) is the length of the step to the next index in direction i. *)
Theorem C111_voxel sqrt (m : 'M[F]_(n + 1)) (X : 'rV[F]_n) i : gplaced m ->
  let e := gindexToWorld m (X + delta_mx 0 i) - gindexToWorld m X in
  voxelSize sqrt m i = sqrt ((e *m e^T) 0 0).
Proof.
move/gplaced_affine => [A [t [U ->]]] e. rewrite /voxelSize; congr sqrt.
have -> : e = row i A.
  by rewrite /e /gindexToWorld !apply_block opprD addrACA subrr addr0 -mulmxBl addrC addKr -rowE.
rewrite mxE; apply: eq_bigr => d _. by rewrite block_mxEul !mxE expr2.
Qed.

(** With one voxel size in all directions and axes not turned, rotate turns the grid in the world about the
    position of index 0, by the transpose acting on rows. *)
Theorem C111_turn_partial k (t : 'rV[F]_n) r X :
  let m := block_mx k%:M 0 t 1%:M in
  gindexToWorld (grotate m r) X = about (gindexToWorld m 0) r^T (gindexToWorld m X).
Proof.
move=> m; rewrite C111_rotate /m /gindexToWorld !apply_block /about mul0mx add0r addrK.
by rewrite !mul_mx_scalar -scalemxAl.
Qed.

(** The same translations, rotations and uniform scalings of a new level set and of a grid of the same cell
    size put them at the same place, but turned in opposite directions. *)
Inductive both := BTranslate of 'rV[F]_n | BRotate of 'M[F]_n | BScale of F.
Definition blegitimate (b : both) : Prop :=
  match b with BTranslate _ => True | BRotate r => orthogonal r | BScale k => k != 0 end.
Definition bmove (pm : place F n * 'M[F]_(n + 1)) (b : both) :=
  match b with
  | BTranslate t => (translate pm.1 t, gtranslate pm.2 t)
  | BRotate r => (rotate pm.1 r, grotate pm.2 r)
  | BScale k => (scale_by pm.1 k, gscale_by pm.2 k)
  end.
Theorem C111_level_set d bs : d != 0 -> (forall b, List.In b bs -> blegitimate b) ->
  let pm := foldl bmove (construct n d, gscale_by 1%:M d) bs in
  exists k R t, orthogonal R /\ forall X,
    indexToWorld false pm.1 X = k *: (X *m R) + t /\ gindexToWorld pm.2 X = k *: (X *m R^T) + t.
Proof.
move=> D L pm.
have gs k A t : gscale_by (block_mx A 0 t 1%:M) k = block_mx (k *: A) 0 t 1%:M :> 'M[F]_(n + 1).
  rewrite /gscale_by /gscale mulmx_block !(mulmx0, mul0mx, mulmx1, mul1mx, addr0, add0r).
  by congr block_mx; rewrite scalemx_const mulr1 diag_const_mx mul_scalar_mx.
have S : forall bs pm, (forall b, List.In b bs -> blegitimate b) ->
  (exists k R t, [/\ good pm.1, orthogonal R,
     [/\ i2wT pm.1 = t, invmx (i2wSinv pm.1) = k%:M & (i2wRinv pm.1)^T = R]
     & pm.2 = block_mx (k *: R^T) 0 t 1%:M]) ->
  exists k R t, [/\ good (foldl bmove pm bs).1, orthogonal R,
     [/\ i2wT (foldl bmove pm bs).1 = t, invmx (i2wSinv (foldl bmove pm bs).1) = k%:M
       & (i2wRinv (foldl bmove pm bs).1)^T = R]
     & (foldl bmove pm bs).2 = block_mx (k *: R^T) 0 t 1%:M].
  elim=> //= b bs' IH [p m] L' [k [R [t [G O [E1 E2 E3] E4]]]]. apply: IH; first by move=> b' H; apply: L'; right.
  have := L' b (or_introl erefl). case: b L' => [v|r|s] L' /= LB; move: G E1 E2 E3 E4 => /= G E1 E2 E3 E4.
  - exists k, R, (t + v); split=> //; first by rewrite E1.
    by rewrite E4 /gtranslate mulmx_block !(mulmx0, mul0mx, mulmx1, mul1mx, addr0, add0r).
  - exists k, (R *m r), t; split=> //.
    + exact: (@move_good _ _ p (Rotate r)).
    + by rewrite /orthogonal trmx_mul mulmxA -(mulmxA R) LB mulmx1.
    + by rewrite trmx_mul trmxK E3.
    + by rewrite E4 /grotate mulmx_block !(mulmx0, mul0mx, mulmx1, mul1mx, addr0, add0r) trmx_mul -scalemxAr.
  - have U : (s *: 1%:M : 'M[F]_n) \in unitmx by rewrite scalemx1 unitmxE det_scalar unitfE expf_neq0.
    exists (s * k), R, t; split=> //.
    + exact: (@move_good _ _ p (Scale (s *: 1%:M))).
    + split=> //. case: G => G1 _. by rewrite inv_scaled // E2 scalemx1 -scalar_mxM mulrC.
    + by rewrite E4 gs scalerA.
have [] := S bs (construct n d, gscale_by 1%:M d) L.
  exists d, 1%:M, 0. split=> //=; [exact: construct_good| by rewrite /orthogonal trmx1 mulmx1 | split=> //|].
  - by rewrite scalemx1 invmx_scalar invrK.
  - by rewrite trmx1.
  - by rewrite (scalar_mx_block n 1 1) gs trmx1.
move=> k [R [t [G O [E1 E2 E3] E4]]]. exists k, R, t; split=> // X.
rewrite /indexToWorld E1 E2 E3 /gindexToWorld E4 apply_block mul_mx_scalar.
by rewrite -scalemxAl -scalemxAr.
Qed.
End Props.
Print Assumptions C111_roundtrip.
Print Assumptions C111_translate.
Print Assumptions C111_rotate.
Print Assumptions C111_scale.
Print Assumptions C111_origin.
Print Assumptions C111_voxel.
Print Assumptions C111_turn_partial.
Print Assumptions C111_level_set.

(** The same quarter turn of a level set and of a grid: different positions. *)
Theorem C111_level_set_refuted : exists X : 'rV[rat]_2,
  orthogonal quarter /\
  indexToWorld false (rotate (@construct rat_fieldType 2 1) quarter) X <> gindexToWorld (grotate 1%:M quarter) X.
Proof.
exists (delta_mx 0 0). split; first exact: quarter_orth.
rewrite C111_rotate /gindexToWorld (scalar_mx_block 2 1 1) apply_block /indexToWorld /=.
rewrite scalemx1 invr1 !(invmx1, mulmx1, addr0) trmxK.
move/matrixP/(_ 0 1). rewrite !(mxE, big_ord_recl, big_ord0) /=. by [].
Qed.
Print Assumptions C111_level_set_refuted.

(** After a stretch, a quarter turn does not turn the grid in the world. *)
Theorem C111_turn_refuted : exists X : 'rV[rat]_2,
  let m := gscale 1%:M (\row_j (if j == 0 then 2%:Q else 1)) in
  gindexToWorld (grotate m quarter) X <> about (gindexToWorld m 0) quarter^T (gindexToWorld m X).
Proof.
exists (delta_mx 0 0) => m.
rewrite C111_rotate /m /gscale mulmx1 /gindexToWorld !apply_block /about mul0mx !addr0 subr0.
move/matrixP/(_ 0 1). rewrite !(mxE, big_ord_recl, big_ord0) /=. by [].
Qed.
Print Assumptions C111_turn_refuted.

(** A matrix with a projective part is not undone. *)
Theorem C111_projective_refuted : exists (m : 'M[rat]_(1 + 1)) X,
  m \in unitmx /\ gworldToIndex m (gindexToWorld m X) <> X.
Proof.
exists (block_mx 0 1%:M 1%:M 0), (const_mx 2%:Q).
have E2 : block_mx 0 1%:M 1%:M 0 *m block_mx 0 1%:M 1%:M 0 = 1%:M :> 'M[rat]_(1 + 1).
  by rewrite mulmx_block !(mulmx0, mul0mx, mulmx1, mul1mx, addr0, add0r) -scalar_mx_block.
have [U2 _] := mulmx1_unit E2. split=> //.
have -> : gworldToIndex (block_mx 0 1%:M 1%:M 0) (gindexToWorld (block_mx 0 1%:M 1%:M 0) (const_mx 2%:Q)) = 1%:M.
  rewrite /gworldToIndex /gindexToWorld /apply.
  have -> : invmx (block_mx 0 1%:M 1%:M 0) = block_mx 0 1%:M 1%:M 0 :> 'M[rat]_(1 + 1).
    by rewrite -[RHS](mulKmx U2) E2 mulmx1.
  by rewrite !mul_row_block !(mulmx0, mul0mx, mulmx1, mul1mx, addr0, add0r) !row_mxKl.
by move/matrixP/(_ 0 0); rewrite !mxE.
Qed.
Print Assumptions C111_projective_refuted.

(** A grid of cell size 2, turned, moved and stretched. *)
Example C111_ex : gplaced (gscale (gtranslate (grotate (block_mx (2%:Q%:M : 'M_2) 0 0 1%:M) quarter) (const_mx 3%:Q))
                             (\row_j (if j == 0 then 2%:Q else 1))).
Proof.
exists 0, (block_mx (2%:Q%:M : 'M_2) 0 0 1%:M),
  [:: GRotate quarter; GTranslate (const_mx 3%:Q); GScale (\row_j (if j == 0 then 2%:Q else 1))].
split=> //.
- by exists (2%:Q%:M), 0; split=> //; rewrite unitmxE det_scalar unitfE.
- move=> g /= [<-|[<-|[<-|[]]]] //=; first exact: quarter_orth.
  by move=> j; rewrite mxE; case: ifP.
Qed.
