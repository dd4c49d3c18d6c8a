(** Model of math/Rational.hpp (rational 86-341, NumCCD 347-468, Interval::bisect 485-491) and math::gcd (ZpcMathUtils.hpp 312-320).
    None: signed overflow, division by zero, shift by 64 or more, or loop fuel exhausted.  The printf on invalid input, the conversions
    from and to double and the string functions are left out. *)
From Verif Require Import Prelude SortModel.
Local Open Scope Z_scope.

(** i64 results *)
Definition chk (x : Z) : option Z := if (- 2 ^ 63 <=? x) && (x <? 2 ^ 63) then Some x else None.
(** C / and %: truncation, undefined for a zero divisor and for INT_MIN / -1 *)
Definition cdiv (a b : Z) : option Z := if b =? 0 then None else chk (Z.quot a b).
Definition cmod (a b : Z) : option Z := if b =? 0 then None else bind (chk (Z.quot a b)) (fun _ => Some (Z.rem a b)).

(** math::gcd (312-320): while (v != 0) { r = u % v; u = v; v = r; } return u; *)
Fixpoint gcd_loop (fuel : nat) (u v : Z) : option Z :=
  if v =? 0 then Some u else match fuel with O => None | S f => bind (cmod u v) (fun r => gcd_loop f v r) end.
(** enough iterations for any v (proved) *)
Definition gcd_fuel (v : Z) : nat := S (S (2 * Z.to_nat (Z.log2 (Z.abs v)))).
Definition gcd (u v : Z) : option Z := gcd_loop (gcd_fuel v) u v.

(** num and den (Rational.hpp 340) *)
Definition rat := (Z * Z)%type.
(** canonicalize (105-122); a zero denominator is only reported, the value is left as it is *)
Definition canonicalize (x : rat) : option rat :=
  let '(n, d) := x in
  if d =? 0 then Some (n, d) else if n =? 0 then Some (0, 1)
  else bind (gcd n d) (fun g => bind (cdiv n g) (fun n => bind (cdiv d g) (fun d =>
       if d <? 0 then bind (chk (- n)) (fun n => bind (chk (- d)) (fun d => Some (n, d))) else Some (n, d)))).
(** rational(n, d) (90) *)
Definition make (n d : Z) : option rat := canonicalize (n, d).
(** operator+= (141-172) and operator-= (174-189); [sub] selects the sign *)
Definition addsub (sub : bool) (x y : rat) : option rat :=
  let '(num, den) := x in let '(rn, rd) := y in
  bind (gcd den rd) (fun g => bind (cdiv den g) (fun den => bind (cdiv rd g) (fun rdg =>
  bind (chk (num * rdg)) (fun a => bind (chk (rn * den)) (fun b => bind (chk (if sub then a - b else a + b)) (fun num =>
  bind (gcd num g) (fun g => bind (cdiv num g) (fun num => bind (cdiv rd g) (fun q => bind (chk (den * q)) (fun den =>
  Some (num, den))))))))))).
Definition add := addsub false.
Definition sub := addsub true.
(** operator*= (191-202) *)
Definition mul (x y : rat) : option rat :=
  let '(num, den) := x in let '(rn, rd) := y in
  bind (gcd num rd) (fun g1 => bind (gcd rn den) (fun g2 =>
  bind (cdiv num g1) (fun a => bind (cdiv rn g2) (fun b => bind (chk (a * b)) (fun num =>
  bind (cdiv den g2) (fun c => bind (cdiv rd g1) (fun d => bind (chk (c * d)) (fun den => Some (num, den))))))))).
(** operator/= (204-229); division by zero is only reported *)
Definition div (x y : rat) : option rat :=
  let '(num, den) := x in let '(rn, rd) := y in
  if num =? 0 then Some x
  else bind (gcd num rn) (fun g1 => bind (gcd rd den) (fun g2 =>
       bind (cdiv num g1) (fun a => bind (cdiv rd g2) (fun b => bind (chk (a * b)) (fun num =>
       bind (cdiv den g2) (fun c => bind (cdiv rn g1) (fun d => bind (chk (c * d)) (fun den =>
       if den <? 0 then bind (chk (- num)) (fun num => bind (chk (- den)) (fun den => Some (num, den))) else Some (num, den))))))))).
(** unary - (231) *)
Definition neg (x : rat) : option rat := bind (chk (- fst x)) (fun n => make n (snd x)).
(** operator== (329-331) *)
Definition eqb (x y : rat) : bool := (fst x =? fst y) && (snd x =? snd y).

(** operator< (250-328).  The negative-modulus loops (278-285): *)
Fixpoint norm_loop (fuel : nat) (d q r : Z) : option (Z * Z) :=
  if r <? 0 then match fuel with O => None | S f => bind (chk (r + d)) (fun r => bind (chk (q - 1)) (fun q => norm_loop f d q r)) end else Some (q, r).
(** the comparison loop (288-313) and the final test (316-327); ts = (d1, q1, r1), rs = (d2, q2, r2) *)
Fixpoint cf_loop (fuel : nat) (rev : bool) (d1 q1 r1 d2 q2 r2 : Z) : option bool :=
  if negb (q1 =? q2) then Some (if rev then q2 <? q1 else q1 <? q2)
  else let rev := negb rev in
       if (r1 =? 0) || (r2 =? 0) then Some (if r1 =? r2 then false else xorb (negb (r1 =? 0)) rev)
       else match fuel with
            | O => None
            | S f => bind (cdiv d1 r1) (fun q1' => bind (cmod d1 r1) (fun r1' => bind (cdiv d2 r2) (fun q2' => bind (cmod d2 r2) (fun r2' =>
                     cf_loop f rev r1 q1' r1' r2 q2' r2'))))
            end.
Definition lt (x y : rat) : option bool :=
  let '(n1, d1) := x in let '(n2, d2) := y in
  bind (cdiv n1 d1) (fun q1 => bind (cmod n1 d1) (fun r1 => bind (cdiv n2 d2) (fun q2 => bind (cmod n2 d2) (fun r2 =>
  bind (norm_loop 2 d1 q1 r1) (fun a => bind (norm_loop 2 d2 q2 r2) (fun b =>
  cf_loop (gcd_fuel d1) false d1 (fst a) (snd a) d2 (fst b) (snd b))))))).
(** operator> (335-338) *)
Definition gt (x y : rat) : option bool := if eqb x y then Some false else bind (lt x y) (fun b => Some (negb b)).

(** ** NumCCD: numerator (u64), denom_power (u8) *)
Definition dyadic := (Z * Z)%type.
Definition u64 (x : Z) : Z := x mod 2 ^ 64.
Definition u8 (x : Z) : Z := x mod 2 ^ 8.
(** pow2 (348), denominator() (404) *)
Definition pow2 (e : Z) : option Z := if e <? 64 then Some (2 ^ e) else None.
(** reduction (350-358): the number of trailing zero bits and the odd part; t is at most 63 so the u8 counter does not wrap *)
Fixpoint reduction_loop (fuel : nat) (t r : Z) : option (Z * Z) :=
  if negb (r =? 0) && Z.even r then match fuel with O => None | S f => reduction_loop f (u8 (t + 1)) (r / 2) end else Some (t, r).
Definition reduction (n : Z) : option (Z * Z) := reduction_loop 64 0 n.
(** operator+ (410-428) *)
Definition dadd (x y : dyadic) : option dyadic :=
  let '(k1, n1) := x in let '(k2, n2) := y in
  if n1 =? n2 then bind (reduction (u64 (k1 + k2))) (fun tr => Some (snd tr, u8 (n2 - fst tr)))
  else if n1 <? n2 then bind (pow2 (n2 - n1)) (fun p => Some (u64 (u64 (k1 * p) + k2), n2))
  else bind (pow2 (n1 - n2)) (fun p => Some (u64 (k1 + u64 (k2 * p)), n1)).
(** operator== (430), operator< (434-446), <=, >=, > (447-451) *)
Definition deq (x y : dyadic) : bool := (fst x =? fst y) && (snd x =? snd y).
Definition dlt (x y : dyadic) : option bool :=
  let '(k1, n1) := x in let '(k2, n2) := y in
  if n1 <? n2 then bind (pow2 (n2 - n1)) (fun p => Some (u64 (p * k1) <? k2))
  else if n2 <? n1 then bind (pow2 (n1 - n2)) (fun p => Some (k1 <? u64 (p * k2)))
  else Some (k1 <? k2).
Definition dle (x y : dyadic) : option bool := if deq x y then Some true else dlt x y.
Definition dge (x y : dyadic) : option bool := bind (dlt x y) (fun b => Some (negb b)).
Definition dgt (x y : dyadic) : option bool := bind (dle x y) (fun b => Some (negb b)).
(** is_sum_leq_1 (458-465) *)
Definition sum_leq_1 (x y : dyadic) : option bool :=
  if snd x =? snd y then bind (pow2 (snd x)) (fun d => Some (u64 (fst x + fst y) <=? d))
  else bind (dadd x y) (fun s => bind (pow2 (snd s)) (fun d => Some (fst s <=? d))).
(** Interval::bisect (485-491) *)
Definition bisect (i : dyadic * dyadic) : option ((dyadic * dyadic) * (dyadic * dyadic)) :=
  bind (dadd (snd i) (fst i)) (fun m => let mid := (fst m, u8 (snd m + 1)) in Some ((fst i, mid), (mid, snd i))).
