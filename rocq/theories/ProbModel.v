(** include/zensim/math/probability/Probability.cpp in exact real arithmetic. The quotient rand() / RAND_MAX is an argument, a number of [0, 1]. *)
From Coq Require Import Reals ZArith Arith.
Local Open Scope R_scope.

(** 10-14: PDF(int lambda, int k) *)
Fixpoint factors (lambda : Z) (k : nat) : R := match k with O => 1 | S j => factors lambda j * (IZR lambda / INR (S j)) end.
Definition pdf_poisson (lambda : Z) (k : nat) : R := factors lambda k * exp (-1 * IZR lambda).
(** 16-20: PDF(double u, double o, int x) *)
Definition pdf_normal (u o : R) (x : nat) : R := 1 / sqrt (2 * PI) / o * exp (- (INR x - u) * (INR x - u) / 2 / o / o).
(** 21-25 *)
Definition anti_normal_pdf (u o : R) (x : nat) : R := 1 - 1 / sqrt (2 * PI) / o * exp (- (INR x - u) * (INR x - u) / 2 / o / o).

(** conversion of double to int: towards zero *)
Definition to_int (r : R) : Z := if Rle_dec 0 r then Int_part r else (- Int_part (- r))%Z.

(** the loop of 31-34, 41-44, 51-54; None: still running after fuel iterations *)
Fixpoint loop (fuel : nat) (pdf : nat -> R) (val cdf : R) (x : nat) : option nat :=
  if Rge_dec val cdf then match fuel with O => None | S f => loop f pdf val (cdf + pdf (S x)) (S x) end else Some x.
(** 27-36: rand_p. PDF(lambda, x) has two arguments and so is the function of line 10: lambda is converted to int *)
Definition rand_p (fuel : nat) (lambda u : R) : option nat := loop fuel (pdf_poisson (to_int lambda)) u (exp (-1 * lambda)) 0.
(** 37-46 *)
Definition rand_normal (fuel : nat) (u o val : R) : option nat := loop fuel (pdf_normal u o) val 0 0.
(** 47-56 *)
Definition rand_anti_normal (fuel : nat) (u o val : R) : option nat := loop fuel (anti_normal_pdf u o) val 0 0.
