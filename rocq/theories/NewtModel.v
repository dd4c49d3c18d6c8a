(* The square root by Newton's iteration.  math/MathUtils.h.
   The element type is an abstract ordered field: rounding is not modelled. *)
From mathcomp Require Import all_ssreflect all_algebra.
Import GRing.Theory Num.Theory Order.Theory.
Set Implicit Arguments.
Unset Strict Implicit.
Unset Printing Implicit Defensive.
Local Open Scope ring_scope.

Section Newt.
Variable T : realFieldType.

(* what a call does: return a number, return NaN, or go on for ever (not
   finished within the fuel) *)
Inductive outcome := Value of T | NaN | Running.

(* MathUtils.h 246-249: the loop, entered with xn and xnp1; the step
   expression is evaluated after the body *)
Fixpoint newton_loop (fuel : nat) (n tol xn xnp1 : T) : outcome :=
  match fuel with
  | 0 => Running
  | fuel'.+1 =>
    if `|xnp1 - xn| > tol then
      let xn := xnp1 in
      newton_loop fuel' n tol xn (1 / 2%:R * (xn + n / xn))
    else Value xnp1
  end.

(* MathUtils.h 238-251: sqrtNewtonRaphson; eps is 128 times the epsilon of T *)
Definition sqrtNewtonRaphson (fuel : nat) (eps n relTol : T) : outcome :=
  if n < - eps then NaN
  else if n < eps then Value 0
  else
    let xn := 1 in
    let xnp1 := 1 / 2%:R * (xn + n / xn) in
    newton_loop fuel n (Num.max (n * relTol) eps) xn xnp1.
End Newt.
Arguments NaN {T}.
Arguments Running {T}.
