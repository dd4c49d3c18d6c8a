(* Vocabulary for the properties of the invariant-based materials. *)
From Coq Require Import Reals Arith.
From Verif Require Import CmModel CmSpec.
Local Open Scope R_scope.

(* A vector of d * d entries, in column-major order, applied to a d x d matrix. *)
Definition along (d : nat) (g : vec) (G : mat) : R :=
  vsum d (fun i => vsum d (fun j => g (j * d + i)%nat * G i j)).
(* [g F] is the gradient at F of the function f of d x d matrices: f changes at the
   rate [along d (g F) G] on every motion through F with velocity G. *)
Definition gradient_at (d : nat) (f : mat -> R) (F : mat) (g : vec) : Prop :=
  forall (M : R -> mat) t G, (forall i j, (i < d)%nat -> (j < d)%nat -> M t i j = F i j) ->
    mat_rate d M t G -> rate (fun u => f (M u)) t (along d g G).
(* [H] is the derivative at F of the vector-valued function g. *)
Definition jacobian_at (d : nat) (g : mat -> vec) (F : mat) (H : mat) : Prop :=
  forall (M : R -> mat) t G n, (forall i j, (i < d)%nat -> (j < d)%nat -> M t i j = F i j) ->
    mat_rate d M t G -> (n < d * d)%nat -> rate (fun u => g (M u) n) t (along d (H n) G).
(* The determinant of matrices of dimension one to three (Leibniz). *)
Definition determinant (d : nat) (F : mat) : R :=
  match d with
  | 1%nat => F 0%nat 0%nat
  | 2%nat => F 0%nat 0%nat * F 1%nat 1%nat - F 1%nat 0%nat * F 0%nat 1%nat
  | _ => F 0%nat 0%nat * F 1%nat 1%nat * F 2%nat 2%nat + F 0%nat 1%nat * F 1%nat 2%nat * F 2%nat 0%nat
       + F 0%nat 2%nat * F 1%nat 0%nat * F 2%nat 1%nat - F 0%nat 2%nat * F 1%nat 1%nat * F 2%nat 0%nat
       - F 0%nat 1%nat * F 1%nat 0%nat * F 2%nat 2%nat - F 0%nat 0%nat * F 1%nat 2%nat * F 2%nat 1%nat
  end.
