(** Specification for C94. *)
From Coq Require Import Reals Arith.
Local Open Scope R_scope.

(** the Poisson distribution: P(X = k) and P(X <= k) *)
Definition poisson (lambda : R) (k : nat) : R := lambda ^ k / INR (fact k) * exp (- lambda).
Definition poisson_cdf (lambda : R) (k : nat) : R := sum_f_R0 (poisson lambda) k.
(** the normal density with mean u and standard deviation o *)
Definition gauss (u o x : R) : R := exp (- ((x - u) ^ 2 / (2 * o ^ 2))) / (o * sqrt (2 * PI)).
(** a call that needs some number of iterations returns x; it never returns *)
Definition returns (f : nat -> option nat) (x : nat) : Prop := exists fuel, f fuel = Some x.
Definition never_returns (f : nat -> option nat) : Prop := forall fuel, f fuel = None.
(** the least number satisfying P *)
Definition least (P : nat -> Prop) (x : nat) : Prop := P x /\ forall y, (y < x)%nat -> ~ P y.
