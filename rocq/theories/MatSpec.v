(* What the matrix functions of zs::vec should compute, in terms of the
   matrices of the Mathematical Components library: [*m], [^T], [\det], [\tr],
   [invmx].  A function of two indices is read as the matrix of its first
   entries. *)
From mathcomp Require Import all_ssreflect all_algebra.
Set Implicit Arguments.
Unset Strict Implicit.
Unset Printing Implicit Defensive.
Local Open Scope ring_scope.

(* the m x n matrix with entries A(i, j) *)
Definition mx (R : Type) (m n : nat) (A : nat -> nat -> R) : 'M[R]_(m, n) :=
  \matrix_(i < m, j < n) A i j.
(* the column and row vector with entries v(i) *)
Definition cv (R : Type) (n : nat) (v : nat -> R) : 'cV[R]_n := \col_(i < n) v i.
Definition rv (R : Type) (n : nat) (v : nat -> R) : 'rV[R]_n := \row_(i < n) v i.
(* the d x e matrix in the column-major array x *)
Definition colmajor (R : Type) (d e : nat) (x : nat -> R) : 'M[R]_(d, e) :=
  \matrix_(i < d, j < e) x (i + d * j)%N.
(* the array with the listed contents *)
Definition arr (R : ringType) (s : seq R) : nat -> R := nth 0 s.
(* the homogeneous coordinates of a point *)
Definition hom (R : ringType) (n : nat) (x : nat -> R) : nat -> R :=
  fun i => if (i < n)%N then x i else 1.
