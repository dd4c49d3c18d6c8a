(* What a solver of a constrained symmetric system is asked to do. *)
From mathcomp Require Import all_ssreflect all_algebra.
Import GRing.Theory Num.Theory Order.Theory.
Set Implicit Arguments.
Unset Strict Implicit.
Unset Printing Implicit Defensive.
Local Open Scope ring_scope.

Section Spec.
Variable T : rcfType.
Variable n : nat.
Implicit Types (A P M : 'M[T]_n) (u v x b : 'cV[T]_n).

(* the scalar product *)
Definition dot u v : T := \sum_i u i 0 * v i 0.

Definition symmetric A : Prop := A^T = A.

(* v is a displacement of the free dofs only *)
Definition free P v : Prop := P *m v = v.

(* P is an orthogonal projection onto the free dofs *)
Definition projection P : Prop := symmetric P /\ P *m P = P.

(* positive definite on the free dofs *)
Definition positive_on P A : Prop :=
  forall v, free P v -> v <> 0 -> 0 < dot v (A *m v).

(* the requirement on the system: a symmetric matrix and a symmetric, projected
   preconditioner, both positive on the free dofs *)
Definition spd_system A P M : Prop :=
  [/\ projection P, symmetric A, positive_on P A, symmetric M & positive_on P M /\ P *m M = M].

(* the residual of the free dofs *)
Definition residual A P b x : 'cV[T]_n := P *m (b - A *m x).

(* the quadratic energy whose minimum solves the system *)
Definition energy A b x : T := dot x (A *m x) / 2%:R - dot b x.

(* the search space after k iterations from x: all the combinations of the first
   k preconditioned powers of the matrix applied to the residual *)
Definition krylov A P M b x (k : nat) (v : 'cV[T]_n) : Prop :=
  exists c : nat -> T,
    v = \sum_(j < k) c j *: iter j (fun w => M *m (P *m (A *m w))) (M *m residual A P b x).
End Spec.
