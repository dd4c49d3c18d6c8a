(** The integer functions of include/zensim/ZpcMathUtils.hpp: min, max, abs, clamp (296-308), gcd, lcm (312-325), the result types of
    operations (327-354) and pow_integral (356-382), with deduce_numeric_max and deduce_numeric_infinity of ZpcFunctional.hpp 208-267.
    Integer types, their limits and arithmetic (modular if unsigned, undefined on overflow if signed) are those of ItModel.
    Simplification: the arithmetic is done in the type itself; the promotion of types narrower than int is not modelled. *)
From Verif Require Import Prelude ItModel.
Open Scope Z_scope.

(** the outcome of a loop run with limited fuel *)
Inductive outcome := Val (z : Z) | Undef | Fuel.
Definition of_option (o : option Z) : outcome := match o with Some z => Val z | None => Undef end.
Definition bind (o : outcome) (f : Z -> outcome) : outcome := match o with Val z => f z | Undef => Undef | Fuel => Fuel end.

(** 296-308 *)
Definition zmin (x y : Z) : Z := if y <? x then y else x.
Definition zmax (x y : Z) : Z := if x <? y then y else x.
Definition zabs (t : ity) (x : Z) : option Z := if x <? 0 then arith t (- x) else Some x.
Definition clamp (x a b : Z) : Z := if x <? a then a else if b <? x then b else x.

(** a / b *)
Definition cdiv (t : ity) (a b : Z) : option Z :=
  if b =? 0 then None else if sgn t && (a =? lo t) && (b =? -1) then None else Some (Z.quot a b).
(** 312-321 *)
Fixpoint gcd_loop (fuel : nat) (t : ity) (u v : Z) : outcome :=
  match fuel with
  | O => Fuel
  | S n => if v =? 0 then Val u else bind (of_option (crem t u v)) (fun r => gcd_loop n t v r)
  end.
(** fuel: the second number decreases in magnitude *)
Definition gcd (t : ity) (u v : Z) : outcome := gcd_loop (S (Z.abs_nat v)) t u v.
(** 322-325 *)
Definition lcm (t : ity) (u v : Z) : outcome :=
  bind (gcd t u v) (fun g => bind (of_option (cdiv t u g)) (fun q => of_option (arith t (q * v)))).

(** 328-341, for integral types *)
Definition binary_op_result (a b : ity) : ity :=
  if sgn a && sgn b then (if bits b <=? bits a then a else b)
  else if sgn a then a
  else if sgn b then b
  else (if bits b <=? bits a then a else b).
(** 345-354 *)
Fixpoint op_result (a : ity) (l : list ity) : ity := match l with [] => a | b :: r => binary_op_result a (op_result b r) end.

(** 357-364 *)
Fixpoint pow_rec (fuel : nat) (t : ity) (base val exp : Z) : outcome :=
  match fuel with
  | O => Fuel
  | S n =>
      if 1 <? exp then
        if Z.land exp 1 =? 0 then bind (of_option (arith t (base * base))) (fun b => pow_rec n t b val (Z.quot exp 2))
        else bind (of_option (arith t (base * base))) (fun b => bind (of_option (arith t (val * base))) (fun v => pow_rec n t b v (Z.quot exp 2)))
      else if exp =? 1 then of_option (arith t (val * base)) else Val val
  end.
(** 366-382: tn is the type of the exponent, a signed type; fuel: the exponent is halved *)
Definition pow_integral (t tn : ity) (base exp : Z) : outcome :=
  if exp =? 3 then bind (of_option (arith t (base * base))) (fun b => of_option (arith t (b * base)))
  else if exp =? 2 then of_option (arith t (base * base))
  else if exp =? 1 then Val base
  else if exp =? 0 then Val 1
  else if exp =? hi tn then Val (hi t)
  else if exp <? 0 then Val 0
  else pow_rec (S (Z.to_nat (Z.log2 exp))) t base 1 exp.
