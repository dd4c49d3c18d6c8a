(** * Placing a grid *)
From mathcomp Require Import all_ssreflect all_algebra.
Import GRing.Theory.
Set Implicit Arguments.
Unset Strict Implicit.
Local Open Scope ring_scope.

Section Spec.
Variable F : fieldType.
Variable n : nat.
(** An affine, invertible matrix acting on rows. *)
Definition affine_matrix (m : 'M[F]_(n + 1)) : Prop :=
  exists A t, A \in unitmx /\ m = block_mx A 0 t 1%:M.
(** Motions: along a vector, by an orthogonal matrix, by nonzero factors along the axes. *)
Inductive gmotion := GTranslate of 'rV[F]_n | GRotate of 'M[F]_n | GScale of 'rV[F]_n.
Definition glegitimate (m : gmotion) : Prop :=
  match m with GTranslate _ => True | GRotate r => r *m r^T = 1%:M | GScale s => forall j, s 0 j != 0 end.
End Spec.
