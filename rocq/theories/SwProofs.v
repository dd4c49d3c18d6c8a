From mathcomp Require Import all_ssreflect all_algebra.
From Verif Require Import SwModel SwSpec.
Import GRing.Theory.
Set Implicit Arguments.
Unset Strict Implicit.
Local Open Scope ring_scope.

Section P.
Variable F : fieldType.
Variable n : nat.
Implicit Types (m : 'M[F]_(n + 1)).

Definition gmove m (g : gmotion F n) :=
  match g with GTranslate t => gtranslate m t | GRotate r => grotate m r | GScale s => gscale m s end.

Lemma apply_block (X : 'rV[F]_n) A t : apply X (block_mx A 0 t 1%:M) = X *m A + t.
Proof. by rewrite /apply mul_row_block row_mxKl mul1mx. Qed.
Lemma inverse_block (A : 'M[F]_n) t : A \in unitmx ->
  invmx (block_mx A 0 t 1%:M) = block_mx (invmx A) 0 (- t *m invmx A) 1%:M :> 'M_(n + 1).
Proof.
move=> U. have E : block_mx A 0 t 1%:M *m block_mx (invmx A) 0 (- t *m invmx A) 1%:M = 1%:M :> 'M_(n + 1).
  rewrite mulmx_block !(mulmx0, mul0mx, mulmx1, mul1mx, addr0, add0r) mulmxV // mulNmx subrr.
  by rewrite -scalar_mx_block.
have [V _] := mulmx1_unit E. by rewrite -[RHS](mulKmx V) E mulmx1.
Qed.
Lemma diag_unit (s : 'rV[F]_n) : (forall j, s 0 j != 0) -> diag_mx s \in unitmx.
Proof. by move=> H; rewrite unitmxE det_diag unitfE; apply/prodf_neq0 => j _; apply: H. Qed.
Lemma orth_tr_unit (r : 'M[F]_n) : r *m r^T = 1%:M -> r^T \in unitmx.
Proof. by move=> /mulmx1_unit []. Qed.
Lemma gmove_affine m g : glegitimate g -> affine_matrix m -> affine_matrix (gmove m g).
Proof.
move=> L [A [t [U ->]]]; case: g L => [v|r|s] /= L.
- exists A, (t + v). by rewrite /gtranslate mulmx_block !(mulmx0, mul0mx, mulmx1, mul1mx, addr0, add0r).
- exists (r^T *m A), t. rewrite unitmx_mul (orth_tr_unit L) U.
  by rewrite /grotate mulmx_block !(mulmx0, mul0mx, mulmx1, mul1mx, addr0, add0r).
- exists (diag_mx s *m A), t. rewrite unitmx_mul (diag_unit L) U.
  by rewrite /gscale mulmx_block !(mulmx0, mul0mx, mulmx1, mul1mx, addr0, add0r).
Qed.
Lemma gmoves_affine gs m : (forall g, List.In g gs -> glegitimate g) -> affine_matrix m ->
  affine_matrix (foldl gmove m gs).
Proof.
elim: gs m => //= g gs IH m L G. apply: IH; first by move=> g' H; apply: L; right.
by apply: gmove_affine => //; apply: L; left.
Qed.
End P.
