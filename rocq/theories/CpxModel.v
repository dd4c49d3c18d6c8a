(* zs::complex and the root finders built on it.
   math/Complex.hpp, math/MathUtils.h.

   Element types are abstract fields (complex arithmetic) and real closed
   fields (where sqrt, abs and comparisons occur): rounding, overflow, NaN and
   infinities are not modelled.  Division by zero yields zero in these fields;
   the theorems say where no division by zero happens. *)
From mathcomp Require Import all_ssreflect all_algebra.
Import GRing.Theory Num.Theory Order.Theory.
Set Implicit Arguments.
Unset Strict Implicit.
Unset Printing Implicit Defensive.
Local Open Scope ring_scope.

(* Complex.hpp 41-109: the members _real and _imag *)
Record complex (T : Type) := Cpx { re : T; im : T }.

Section Field.
Variable T : fieldType.
Notation complex := (complex T).

(* Complex.hpp 43: complex(r, i = 0) *)
Definition c_of (r : T) : complex := Cpx r 0.

(* Complex.hpp 62-79: assignment operators with a real operand *)
Definition addeq_r (z : complex) (t : T) : complex := Cpx (re z + t) (im z).
Definition subeq_r (z : complex) (t : T) : complex := Cpx (re z - t) (im z).
Definition muleq_r (z : complex) (t : T) : complex := Cpx (re z * t) (im z * t).
Definition diveq_r (z : complex) (t : T) : complex := Cpx (re z / t) (im z / t).

(* Complex.hpp 86-95: += and -= *)
Definition addeq (z o : complex) : complex := Cpx (re z + re o) (im z + im o).
Definition subeq (z o : complex) : complex := Cpx (re z - re o) (im z - im o).

(* Complex.hpp 96-100: *= ; _real is assigned first and read again for _imag.
   [alias]: the operand is the object itself (x *= x), so that o.real() is the
   new _real as well *)
Definition muleq (z o : complex) : complex :=
  let z := Cpx (re z * re o - im z * im o) (im z) in
  Cpx (re z) (re z * im o + im z * re o).
Definition muleq_alias (z : complex) : complex :=
  let z := Cpx (re z * re z - im z * im z) (im z) in
  Cpx (re z) (re z * im z + im z * re z).

(* Complex.hpp 101-107: /= *)
Definition diveq (z o : complex) : complex :=
  let r := re z * re o + im z * im o in
  let n := re o * re o + im o * im o in
  let z := Cpx (re z) ((im z * re o - re z * im o) / n) in
  Cpx (r / n) (im z).

(* Complex.hpp 183-186: unary - *)
Definition c_neg (z : complex) : complex := Cpx (- re z) (- im z).

(* Complex.hpp 115-180: binary operators, on a copy *)
Definition c_add (x y : complex) : complex := addeq x y.
Definition c_add_r (x : complex) (y : T) : complex := addeq_r x y.
Definition r_add_c (x : T) (y : complex) : complex := addeq_r y x.
Definition c_sub (x y : complex) : complex := subeq x y.
Definition c_sub_r (x : complex) (y : T) : complex := subeq_r x y.
Definition r_sub_c (x : T) (y : complex) : complex := addeq_r (c_neg y) x.
Definition c_mul (x y : complex) : complex := muleq x y.
Definition c_mul_r (x : complex) (y : T) : complex := muleq_r x y.
Definition r_mul_c (x : T) (y : complex) : complex := muleq_r y x.
Definition c_div (x y : complex) : complex := diveq x y.
Definition c_div_r (x : complex) (y : T) : complex := diveq_r x y.
Definition r_div_c (x : T) (y : complex) : complex := diveq (c_of x) y.

(* Complex.hpp 188-196: == *)
Definition c_eqb (x y : complex) : bool := (re x == re y) && (im x == im y).
Definition c_eqb_r (x : complex) (y : T) : bool := (re x == y) && (im x == 0).

(* Complex.hpp 217-222: norm (the squared magnitude), conj *)
Definition c_norm (z : complex) : T := re z * re z + im z * im z.
Definition c_conj (z : complex) : complex := Cpx (re z) (- im z).
End Field.

Section Rcf.
Variable T : rcfType.
Notation complex := (complex T).

(* MathUtils.h 25-33: abs *)
Definition c_abs (z : complex) : T :=
  let x := re z in
  let y := im z in
  let s := Num.max `|x| `|y| in
  if s == 0 then s
  else
    let x := x / s in
    let y := y / s in
    s * Num.sqrt (x * x + y * y).

(* MathUtils.h 85-97: sqrt *)
Definition c_sqrt (z : complex) : complex :=
  let x := re z in
  let y := im z in
  if x == 0 then
    let t := Num.sqrt (`|y| / 2%:R) in
    Cpx t (if y < 0 then - t else t)
  else
    let t := Num.sqrt (2%:R * (c_abs z + `|x|)) in
    let u := t / 2%:R in
    if 0 < x then Cpx u (y / t) else Cpx (`|y| / t) (if y < 0 then - u else u).

(* MathUtils.h 325-339: get_smallest_positive_real_quad_root *)
Definition quad_root (a b c tol : T) : T :=
  if `|a| <= tol then - c / b
  else
    let desc := b * b - 4%:R * a * c in
    if 0 < desc then
      let t := (- b - Num.sqrt desc) / (2%:R * a) in
      if t < 0 then (- b + Num.sqrt desc) / (2%:R * a) else t
    else -1.

(* MathUtils.h 340-374: get_smallest_positive_real_cubic_root.
   [cbrt z] stands for pow(z, 1/3), which goes through log and polar. *)
Section Cubic.
Variable cbrt : complex -> complex.

Definition cubic_root (a b c d tol : T) : T :=
  let t := -1 in
  if `|a| <= tol then quad_root b c d tol
  else
    let i := Cpx 0 1 in
    let delta0 := c_of (b * b - 3%:R * a * c) in
    let delta1 := c_of (2%:R * b * b * b - 9%:R * a * b * c + 27%:R * a * a * d) in
    let disc := c_sub (c_mul delta1 delta1) (c_mul (c_mul (r_mul_c 4%:R delta0) delta0) delta0) in
    let C := cbrt (c_div_r (c_add delta1 (c_sqrt disc)) 2%:R) in
    let C := if c_abs C == 0 then cbrt (c_div_r (c_sub delta1 (c_sqrt disc)) 2%:R) else C in
    let u2 := c_div_r (r_add_c (-1) (r_mul_c (Num.sqrt 3%:R) i)) 2%:R in
    let u3 := c_div_r (r_sub_c (-1) (r_mul_c (Num.sqrt 3%:R) i)) 2%:R in
    let t1 := c_div_r (c_add (r_add_c b C) (c_div delta0 C)) (- 3%:R * a) in
    let t2 := c_div_r (c_add (r_add_c b (c_mul u2 C)) (c_div delta0 (c_mul u2 C))) (- 3%:R * a) in
    let t3 := c_div_r (c_add (r_add_c b (c_mul u3 C)) (c_div delta0 (c_mul u3 C))) (- 3%:R * a) in
    let t := if (`|im t1| < tol) && (0 < re t1) then re t1 else t in
    let t := if (`|im t2| < tol) && (0 < re t2) && ((re t2 < t) || (t < 0)) then re t2 else t in
    if (`|im t3| < tol) && (0 < re t3) && ((re t3 < t) || (t < 0)) then re t3 else t.
End Cubic.
End Rcf.
