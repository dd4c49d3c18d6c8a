(** * Bounding box of a SparseLevelSet (include/zensim/geometry/SparseLevelSet.hpp 352-365)

    Numbers are those of an arbitrary ordered field. *)

From mathcomp Require Import all_ssreflect all_algebra.
From Verif Require Import LwModel.
Import GRing.Theory Num.Theory.
Set Implicit Arguments.
Unset Strict Implicit.
Local Open Scope ring_scope.

Section Model.
Variable F : realFieldType.
Variable n : nat.

(** coord = _min + loc * length (358), [loc] a corner in {0,1}^n. *)
Definition corner (lo hi : 'rV[F]_n) (loc : {ffun 'I_n -> bool}) : 'rV[F]_n :=
  let length := hi - lo in
  \row_d (lo 0 d + (loc d)%:R * length 0 d).
(** The body of the inner loop (360-363), for all d at once. *)
Definition grow (b : 'rV[F]_n * 'rV[F]_n) (pos : 'rV[F]_n) : 'rV[F]_n * 'rV[F]_n :=
  (\row_d (if pos 0 d < b.1 0 d then pos 0 d else b.1 0 d),
   \row_d (if pos 0 d > b.2 0 d then pos 0 d else b.2 0 d)).
(** do_getBoundingBox (352-365); [top] and [bot] are the largest and lowest number, the corners are
    taken in some order (all of ndrange<dim>(2)). *)
Definition getBoundingBox (top bot : F) (centred : bool) (p : place F n) (lo hi : 'rV[F]_n) :
    'rV[F]_n * 'rV[F]_n :=
  foldl grow (const_mx top, const_mx bot)
    [seq indexToWorld centred p (corner lo hi loc) | loc <- enum {ffun 'I_n -> bool}].
End Model.
