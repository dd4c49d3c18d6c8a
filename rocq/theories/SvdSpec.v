(* Factorisations of matrices, independently of the code. *)
From mathcomp Require Import all_ssreflect all_algebra.
From Verif Require Import MatSpec RotSpec.
Set Implicit Arguments.
Unset Strict Implicit.
Unset Printing Implicit Defensive.
Import GRing.Theory Num.Theory Order.Theory.
Local Open Scope ring_scope.

Section Spec.
Variable T : rcfType.

Definition upper_triangular n (R : 'M[T]_n) : Prop := forall i j : 'I_n, (j < i)%N -> R i j = 0.
Definition upper_bidiagonal n (R : 'M[T]_n) : Prop :=
  forall i j : 'I_n, (j < i)%N || (i.+1 < j)%N -> R i j = 0.
Definition symmetric n (S : 'M[T]_n) : Prop := S^T = S.

(* the square of the Frobenius norm: the sum of the squares of the entries *)
Definition frob2 n (X : 'M[T]_n) : T := \sum_i \sum_j X i j ^+ 2.

(* R is a rotation and no rotation is nearer to A *)
Definition nearest_rotation n (A R : 'M[T]_n) : Prop :=
  is_rotation R /\ forall Q : 'M[T]_n, is_rotation Q -> frob2 (A - R) <= frob2 (A - Q).

(* the diagonal matrix *)
Definition diag n (S : nat -> T) : 'M[T]_n := diag_mx (\row_j S j).
End Spec.
