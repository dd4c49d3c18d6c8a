(* Vocabulary for the elasticity properties.  Only CmModel's vectors, the sum of
   the first entries and the three materials are used. *)
From Coq Require Import Reals Arith.
From Verif Require Import CmModel.
Local Open Scope R_scope.

(* [f] has derivative [v] at [t] (standard library). *)
Definition rate (f : R -> R) (t v : R) : Prop := derivable_pt_lim f t v.
(* The first d entries of a time-dependent vector, or d x d of a matrix. *)
Definition vec_rate (d : nat) (s : R -> vec) (t : R) (v : vec) : Prop :=
  forall i, (i < d)%nat -> rate (fun u => s u i) t (v i).
Definition mat_rate (d : nat) (F : R -> mat) (t : R) (G : mat) : Prop :=
  forall i j, (i < d)%nat -> (j < d)%nat -> rate (fun u => F u i j) t (G i j).

Definition delta (i j : nat) : R := if Nat.eqb i j then 1 else 0.
(* The columns and the rows of U are orthonormal. *)
Definition orthogonal (d : nat) (U : mat) : Prop :=
  (forall i j, (i < d)%nat -> (j < d)%nat -> vsum d (fun k => U k i * U k j) = delta i j) /\
  (forall i j, (i < d)%nat -> (j < d)%nat -> vsum d (fun k => U i k * U j k) = delta i j).
(* F = U diag(S) V^T with U and V orthogonal. *)
Definition decomposes (d : nat) (F U : mat) (S : vec) (V : mat) : Prop :=
  orthogonal d U /\ orthogonal d V /\
  forall i j, (i < d)%nat -> (j < d)%nat -> F i j = vsum d (fun k => U i k * S k * V j k).
(* The entrywise product of two matrices, summed. *)
Definition contract (d : nat) (P G : mat) : R := vsum d (fun i => vsum d (fun j => P i j * G i j)).

(* The three materials and the stretches for which they are defined. *)
Inductive material := FixedCorotated | StvkHencky | NeoHookean.
Definition model (k : material) (m : lame) : iso :=
  match k with
  | FixedCorotated => fixed_corotated m
  | StvkHencky => stvk_hencky m
  | NeoHookean => neo_hookean m
  end.
Definition domain (k : material) (d : nat) (S : vec) : Prop :=
  match k with
  | FixedCorotated => True
  | StvkHencky => forall i, (i < d)%nat -> S i <> 0
  | NeoHookean => 0 < vprod d S
  end.
(* 0-, 1-, 2- or 3-dimensional quantities *)
Definition small_dim (d : nat) : Prop := d = 1%nat \/ d = 2%nat \/ d = 3%nat.

(* The pairs of axes the coefficients 0, 1, 2 of the left block are about. *)
Definition pair_of (k : nat) : nat * nat :=
  match k with 0%nat => (0, 1) | 1%nat => (1, 2) | _ => (0, 2) end%nat.
Definition pairs (d k : nat) : Prop := (d = 2%nat /\ k = 0%nat) \/ (d = 3%nat /\ (k < 3)%nat).

(* Stretches for which the quotients of the stiffness are not replaced by a
   fallback: the sum of any two is at least 1e-6, and for the Hencky material all
   are positive, in descending order, at least 1e-6 of one another, and either
   equal or at least 1e-6 apart relative to the smaller. *)
Definition resolved (k : material) (d : nat) (S : vec) : Prop :=
  (forall i j, (i < d)%nat -> (j < d)%nat -> i <> j -> 1 / 1000000 <= S i + S j) /\
  match k with
  | StvkHencky =>
      (forall i, (i < d)%nat -> 0 < S i) /\
      forall i j, (i < j)%nat -> (j < d)%nat ->
        1 / 1000000 <= S i / S j /\ (S i = S j \/ 1 / 1000000 <= Rabs (S i / S j - 1))
  | _ => True
  end.

(* Positive semi-definite n x n matrix. *)
Definition symmetric (n : nat) (H : mat) : Prop :=
  forall i j, (i < n)%nat -> (j < n)%nat -> H i j = H j i.
Definition psd (n : nat) (H : mat) : Prop :=
  forall x : vec, 0 <= vsum n (fun i => vsum n (fun j => x i * H i j * x j)).
