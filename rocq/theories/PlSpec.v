(* Vocabulary for the plasticity properties: stresses as functions of the stretches,
   written down from the elasticity models rather than from the return mappings. *)
From Coq Require Import Reals Arith.
From Verif Require Import CmModel.
Local Open Scope R_scope.

Definition positive (d : nat) (S : vec) : Prop := forall i, (i < d)%nat -> 0 < S i.
Definition same (d : nat) (S T : vec) : Prop := forall i, (i < d)%nat -> S i = T i.
(* The mean of d numbers, their deviation from it, and its Euclidean length. *)
Definition mean (d : nat) (v : vec) : R := vsum d v / INR d.
Definition spread (d : nat) (v : vec) : R := sqrt (vsum d (fun i => (v i - mean d v) * (v i - mean d v))).

(* Principal Kirchhoff stresses of the Hencky material (StvkWithHencky). *)
Definition hencky_stress (m : lame) (d : nat) (S : vec) : vec := fun i =>
  2 * mu m * ln (S i) + lam m * vsum d (fun k => ln (S k)).
(* Principal deviatoric Kirchhoff stress of the neo-Hookean material: mu J^(-2/d)
   times the deviation of the squared stretches; and its pressure. *)
Definition shear_stress (m : lame) (d : nat) (S : vec) : R :=
  mu m * Rpower (vprod d S) (-2 / INR d) * spread d (fun i => S i * S i).
Definition pressure (kappa J : R) : R := - (kappa / 2) * (J * J - 1).
