(** * The placement of a SparseGrid in the world
    (include/zensim/geometry/SparseGrid.hpp 159-182, 254-262, 388-404; the motions of AdaptiveGrid.hpp
    692-716 are the same)

    Numbers are those of an arbitrary field, any dimension.  The loops of Transform.hpp are written as
    block matrices (see RotModel for the loops). *)

From mathcomp Require Import all_ssreflect all_algebra.
Import GRing.Theory.
Set Implicit Arguments.
Unset Strict Implicit.
Local Open Scope ring_scope.

Section Model.
Variable F : fieldType.
Variable n : nat.
(** The member _transform. *)
Notation transform := 'M[F]_(n + 1).

(** resetTransformation (164-166), getIndexToWorldTransformation (167). *)
Definition resetTransformation (_ : transform) (i2w : transform) : transform := i2w.
Definition getIndexToWorldTransformation (m : transform) : transform := m.
(** translate (168-171): postTranslate (math/matrix/Transform.hpp 31-36). *)
Definition gtranslate (m : transform) (t : 'rV[F]_n) : transform := m *m block_mx 1%:M 0 t 1%:M.
(** rotate (172-177): preRotate (Transform.hpp 66-71) by setToRotation (57-64), which transposes. *)
Definition grotate (m : transform) (r : 'M[F]_n) : transform := block_mx r^T 0 0 1%:M *m m.
(** scale (178-182): preScale (Transform.hpp 45-49) multiplies row i by s[i]. *)
Definition gscale (m : transform) (s : 'rV[F]_n) : transform := block_mx (diag_mx s) 0 0 1%:M *m m.
Definition gscale_by (m : transform) (s : F) : transform := gscale m (s *: const_mx 1).

(** x * A for a homogeneous A (math/Vec.h 704-721): the last column is not used. *)
Definition apply (x : 'rV[F]_n) (a : transform) : 'rV[F]_n := lsubmx (row_mx x 1%:M *m a).
(** indexToWorld (254-258), worldToIndex (259-262). *)
Definition gindexToWorld (m : transform) (X : 'rV[F]_n) : 'rV[F]_n := apply X m.
Definition gworldToIndex (m : transform) (x : 'rV[F]_n) : 'rV[F]_n := apply x (invmx m).
(** voxelSize (399-404); [sqrt] is that of the numbers. *)
Definition voxelSize (sqrt : F -> F) (m : transform) (i : 'I_n) : F :=
  sqrt (\sum_d (m (lshift 1 i) (lshift 1 d)) ^+ 2).
End Model.
