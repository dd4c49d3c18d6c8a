(* Specification for C91. *)
From Coq Require Import Reals List Lia.
From Verif Require Import FricModel DgModel DgSpec.
Import ListNotations.
Local Open Scope R_scope.

(* column k of a matrix with w columns stored row after row *)
Definition column (w k : nat) (m : list R) : list R := map (fun i => nth (w * i + k) m 0) (seq 0 (length m / w)).
(* only the columns ks of a matrix with h rows and w columns have entries other than 0 *)
Definition only_columns (h w : nat) (ks : list nat) (m : list R) : Prop :=
  length m = (h * w)%nat /\ forall i k, (i < h)%nat -> (k < w)%nat -> ~ In k ks -> nth (w * i + k) m 0 = 0.
(* the area of the parallelogram spanned by u and v *)
Definition area (u v : v3) : R := sqrt (norm_sqr (cross u v)).
