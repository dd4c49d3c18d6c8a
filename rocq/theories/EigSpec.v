(* Eigenvalues, eigenvectors and positive semi-definite matrices, independently
   of the code. *)
From mathcomp Require Import all_ssreflect all_algebra.
From Verif Require Import SvdSpec.
Set Implicit Arguments.
Unset Strict Implicit.
Unset Printing Implicit Defensive.
Import GRing.Theory Num.Theory Order.Theory.
Local Open Scope ring_scope.

Section Spec.
Variable T : rcfType.

(* the columns of E are orthonormal *)
Definition orthonormal n (E : 'M[T]_n) : Prop := E^T *m E = 1%:M.

(* the columns of E are orthonormal eigenvectors of M for the values e *)
Definition eigenbasis n (M : 'M[T]_n) (e : nat -> T) (E : 'M[T]_n) : Prop :=
  orthonormal E /\ forall j : 'I_n, M *m col j E = e j *: col j E.

Definition quadratic n (M : 'M[T]_n) (x : 'cV[T]_n) : T := (x^T *m M *m x) 0 0.

(* symmetric, and x^T M x >= 0 for every x *)
Definition psd n (M : 'M[T]_n) : Prop := symmetric M /\ forall x, 0 <= quadratic M x.
End Spec.
