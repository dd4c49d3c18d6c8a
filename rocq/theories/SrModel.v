(** The monoids and semirings of include/zensim/ZpcFunctional.hpp: deduce_numeric_max and _lowest (210-224, 240-254), the predefined monoids
    (166-196, 268-285), SemiringImpl (317-336), multiplier_for (376-386) and the preset semirings (364-408), over the integer types of ItModel.
    Simplifications: the arithmetic of a domain is done in the domain type (promotion of narrow types is not modelled); all arguments have the domain type.
    Floating point domains are not modelled here (plus_times over them: SpmvModel). *)
From Verif Require Import Prelude ItModel.
Open Scope Z_scope.

(** 210-224: signed: ~(1 << (w - 1)), unsigned: ~0, converted to the type *)
Definition numeric_max (t : ity) : Z := if sgn t then conv t (Z.lnot (Z.shiftl 1 (bits t - 1))) else conv t (Z.lnot 0).
(** 240-254 *)
Definition numeric_lowest (t : ity) : Z := if sgn t then conv t (Z.shiftl 1 (bits t - 1)) else 0.

(** 166-172: (args + ...), a right fold of at least one argument *)
Fixpoint sum_pack (t : ity) (a : Z) (args : list Z) : option Z :=
  match args with [] => Some a | b :: r => obind (sum_pack t b r) (fun s => arith t (a + s)) end.
(** 173-182: (args * ...) for at least one argument *)
Fixpoint prod_pack (t : ity) (a : Z) (args : list Z) : option Z :=
  match args with [] => Some a | b :: r => obind (prod_pack t b r) (fun s => arith t (a * s)) end.
(** 183-189 and 190-196: the answer is a bool *)
Definition truth (b : bool) : Z := if b then 1 else 0.
Definition or_pack (args : list Z) : Z := truth (existsb (fun x => negb (x =? 0)) args).
Definition and_pack (args : list Z) : Z := truth (forallb (fun x => negb (x =? 0)) args).
(** 268-276 *)
Definition max_pack (t : ity) (args : list Z) : Z := fold_left (fun res x => if x <? res then res else x) args (numeric_lowest t).
(** 277-285 *)
Definition min_pack (t : ity) (args : list Z) : Z := fold_left (fun res x => if res <? x then res else x) args (numeric_max t).

(** 299-315 *)
Inductive category := plus_times | boolean | min_plus | max_plus | min_times | max_times.
(** 320: value_type is the type of identity(): int for plus_times (168: [auto identity() { return 0; }]), bool for boolean, the domain otherwise *)
Definition value_type (c : category) (t : ity) : ity := match c with plus_times => Ity true 32 | boolean => Ity false 1 | _ => t end.
(** 327 with 168, 185, 271, 280 *)
Definition identity (c : category) (t : ity) : Z :=
  match c with plus_times => 0 | boolean => 0 | min_plus | min_times => numeric_max t | max_plus | max_times => numeric_lowest t end.
(** 329-331: the sum of the domain, converted to value_type *)
Definition add (c : category) (t : ity) (a : Z) (args : list Z) : option Z :=
  match c with
  | plus_times => obind (sum_pack t a args) (fun z => Some (conv (value_type c t) z))
  | boolean => Some (or_pack (a :: args))
  | min_plus | min_times => Some (min_pack t (a :: args))
  | max_plus | max_times => Some (max_pack t (a :: args))
  end.
(** 376-386, with both factors of the domain type *)
Definition multiplier_for (t : ity) (ident : Z) (op : Z -> Z -> Z) (a b : Z) : option Z :=
  if (a =? ident) || (b =? ident) then Some ident else arith t (op a b).
(** 333-335 with the multiplications of 367, 372, 390, 395, 400, 406 *)
Definition multiply (c : category) (t : ity) (a b : Z) : option Z :=
  match c with
  | plus_times => obind (arith t (a * b)) (fun z => Some (conv (value_type c t) z))
  | boolean => Some (truth (negb (a =? 0) && negb (b =? 0)))
  | min_plus | max_plus => multiplier_for t (identity c t) Z.add a b
  | min_times | max_times => multiplier_for t (identity c t) Z.mul a b
  end.
