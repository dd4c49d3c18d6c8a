(** * Moving a body *)

From mathcomp Require Import all_ssreflect all_algebra.
Import GRing.Theory.
Set Implicit Arguments.
Unset Strict Implicit.
Local Open Scope ring_scope.

Section Spec.
Variable F : fieldType.
Variable n : nat.

Definition orthogonal (r : 'M[F]_n) : Prop := r *m r^T = 1%:M.

(** What a user does to a placed level set: legitimate motions only. *)
Inductive motion := Translate of 'rV[F]_n | Rotate of 'M[F]_n | Scale of 'M[F]_n.
Definition legitimate (m : motion) : Prop :=
  match m with Translate _ => True | Rotate r => orthogonal r | Scale s => s \in unitmx end.
(** Scalings by one factor in all directions. *)
Definition uniform (m : motion) : Prop :=
  match m with Scale s => exists k, k != 0 /\ s = k%:M | _ => True end.

(** The same linear change about the point o. *)
Definition about (o : 'rV[F]_n) (a : 'M[F]_n) (x : 'rV[F]_n) : 'rV[F]_n := (x - o) *m a + o.
End Spec.
