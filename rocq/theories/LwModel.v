(** * The placement of a SparseLevelSet in the world
    (include/zensim/geometry/SparseLevelSet.hpp 59-71, 140-187, 369-376, 421-428, 756-762;
    include/zensim/math/matrix/Transform.hpp 116-156).

    Vectors are rows and act on the left of matrices, as in the library.  Numbers are those of an
    arbitrary field; inverse is that of matrices (see MatModel for the code of it), any dimension. *)

From mathcomp Require Import all_ssreflect all_algebra.
Import GRing.Theory.
Set Implicit Arguments.
Unset Strict Implicit.
Local Open Scope ring_scope.

Section Model.
Variable F : fieldType.
Variable n : nat.

(** Members (189-199): _i2wT, _i2wRinv, _i2wSinv, _i2wRhat, _i2wShat, _grid.dx. *)
Record place := Place { i2wT : 'rV[F]_n; i2wRinv : 'M[F]_n; i2wSinv : 'M[F]_n;
                        i2wRhat : 'M[F]_n; i2wShat : 'M[F]_n; dx : F }.

(** Constructor (59-71). *)
Definition construct (d : F) : place := Place 0 1%:M (d^-1 *: 1%:M) 1%:M 1%:M d.
(** decompose_transform into s, r, t with applyOnColumn = false
    (include/zensim/math/matrix/Transform.hpp 116-156): the matrix is transposed, the last column gives t,
    the rest is handed to polar_decomposition, whose factors are stored untransposed.  [polar] is
    polar_decomposition, which returns the pair (R, S). *)
Definition decompose (polar : 'M[F]_n -> 'M[F]_n * 'M[F]_n) (m : 'M[F]_(n + 1)) : 'M[F]_n * 'M[F]_n * 'rV[F]_n :=
  let h := m^T in
  let t := (ursubmx h)^T in
  let rs := polar (ulsubmx h) in
  (rs.2, rs.1, t).
(** resetTransformation (140-146). *)
Definition reset (polar : 'M[F]_n -> 'M[F]_n * 'M[F]_n) (p : place) (m : 'M[F]_(n + 1)) : place :=
  let: (s, r, t) := decompose polar m in
  Place t r^T (invmx s) 1%:M 1%:M (dx p).
(** translate (168-171), rotate (172-178). *)
Definition translate (p : place) (t : 'rV[F]_n) : place :=
  Place (i2wT p + t) (i2wRinv p) (i2wSinv p) (i2wRhat p) (i2wShat p) (dx p).
Definition rotate (p : place) (r : 'M[F]_n) : place :=
  Place (i2wT p) (r^T *m i2wRinv p) (i2wSinv p) (i2wRhat p *m r) (i2wShat p) (dx p).
(** scale (179-187); [s00] is s(0, 0). *)
Definition scale_dx (p : place) (s : 'M[F]_n) (s00 : F) : place :=
  Place (i2wT p) (i2wRinv p) (invmx s *m i2wSinv p) (i2wRhat p) (i2wShat p *m s) (dx p * s00).
Definition s00 (s : 'M[F]_n) : F := if insub 0%N is Some i then s i i else 0.
Definition scale (p : place) (s : 'M[F]_n) : place := scale_dx p s (s00 s).
Definition scale_by (p : place) (s : F) : place := scale p (s *: 1%:M).

(** worldToIndex (369-376) and indexToWorld (421-428); [centred]: category cellcentered. *)
Definition half : 'rV[F]_n := const_mx (2%:R^-1).
Definition worldToIndex (centred : bool) (p : place) (x : 'rV[F]_n) : 'rV[F]_n :=
  if centred then (x - i2wT p) *m i2wRinv p *m i2wSinv p - half
  else (x - i2wT p) *m i2wRinv p *m i2wSinv p.
Definition indexToWorld (centred : bool) (p : place) (X : 'rV[F]_n) : 'rV[F]_n :=
  if centred then (X + half) *m invmx (i2wSinv p) *m invmx (i2wRinv p) + i2wT p
  else X *m invmx (i2wSinv p) *m (i2wRinv p)^T + i2wT p.

(** getIndexToWorldTransformation (147-167). *)
Definition transformation (p : place) : 'M[F]_(n + 1) :=
  let ret := block_mx (invmx (i2wSinv p)) 0 0 1%:M in
  let ret := ret *m block_mx (i2wRinv p)^T 0 0 1%:M in
  ret *m block_mx 1%:M 0 (i2wT p) 1%:M.

(** do_getMaterialVelocity (756-762); [v] is the sample of property "v". *)
Definition materialVelocity (p : place) (v : 'rV[F]_n) : 'rV[F]_n := v *m i2wShat p *m i2wRhat p.
End Model.
