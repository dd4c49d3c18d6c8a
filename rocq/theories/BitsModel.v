(** Model of math/bit/Bits.h (all paths under /repo/include/zensim).  Unsigned words are N; additions,
    multiplications and left shifts that may leave the word are reduced modulo 2^32 or 2^64.  A shift by the word
    width or more is undefined behaviour and yields None. *)
From Verif Require Import Prelude.
Local Open Scope N_scope.

(** unsigned wrap-around arithmetic of the C++ unsigned types of width [w] *)
Definition wmul (w a b : N) : N := (a * b) mod 2 ^ w.
Definition wadd (w a b : N) : N := (a + b) mod 2 ^ w.
Definition wsub (w a b : N) : N := (a + 2 ^ w - b mod 2 ^ w) mod 2 ^ w.
Definition wshl (w a k : N) : N := N.shiftl a k mod 2 ^ w.
Definition wnot (w a : N) : N := N.lxor a (N.ones w).
(** a << k, a >> k with the defined range of the shift count *)
Definition cshl (w a k : N) : option N := if k <? w then Some (wshl w a k) else None.
Definition cshr (w a k : N) : option N := if k <? w then Some (N.shiftr a k) else None.

(** expand_bits_32 (Bits.h:84-90) *)
Definition expand_bits_32 (v : N) : N :=
  let v := N.land (wmul 32 v 0x00010001) 0xFF0000FF in
  let v := N.land (wmul 32 v 0x00000101) 0x0F00F00F in
  let v := N.land (wmul 32 v 0x00000011) 0xC30C30C3 in
  let v := N.land (wmul 32 v 0x00000005) 0x49249249 in
  v.
(** expand_bits_64 (Bits.h:91-101) *)
Definition expand_bits_64 (v : N) : N :=
  let x := N.land v 0x1fffff in
  let x := N.land (N.lor x (wshl 64 x 32)) 0x1f00000000ffff in
  let x := N.land (N.lor x (wshl 64 x 16)) 0x1f0000ff0000ff in
  let x := N.land (N.lor x (wshl 64 x 8)) 0x100f00f00f00f00f in
  let x := N.land (N.lor x (wshl 64 x 4)) 0x10c30c30c30c30c3 in
  let x := N.land (N.lor x (wshl 64 x 2)) 0x1249249249249249 in
  x.
(** compact_bits_32 (Bits.h:102-110) *)
Definition compact_bits_32 (v : N) : N :=
  let v := N.land v 0x9249249 in
  let v := N.land (N.lxor v (N.shiftr v 2)) 0x30c30c3 in
  let v := N.land (N.lxor v (N.shiftr v 4)) 0x0300f00f in
  let v := N.land (N.lxor v (N.shiftr v 8)) 0x30000ff in
  let v := N.land (N.lxor v (N.shiftr v 16)) 0x000003ff in
  v.
(** compact_bits_64 (Bits.h:111-121); the final cast to u32 is the identity on 21-bit values but is kept. *)
Definition compact_bits_64 (v : N) : N :=
  let v := N.land v 0x1249249249249249 in
  let v := N.land (N.lxor v (N.shiftr v 2)) 0x10c30c30c30c30c3 in
  let v := N.land (N.lxor v (N.shiftr v 4)) 0x100f00f00f00f00f in
  let v := N.land (N.lxor v (N.shiftr v 8)) 0x1f0000ff0000ff in
  let v := N.land (N.lxor v (N.shiftr v 16)) 0x1f00000000ffff in
  let v := N.land (N.lxor v (N.shiftr v 32)) 0x1fffff in
  v mod 2 ^ 32.
(** morton_3d_32 / morton_3d_64 (Bits.h:122-129) after the float -> u32 conversion of the scaled coordinates.
    Simplified: the floating-point scaling (x*1024.f, x*2097152.) and the cast are not modelled. *)
Definition morton_3d_32 (x y z : N) : N :=
  N.lor (N.lor (wshl 32 (expand_bits_32 x) 2) (wshl 32 (expand_bits_32 y) 1)) (expand_bits_32 z).
Definition morton_3d_64 (x y z : N) : N :=
  N.lor (N.lor (wshl 64 (expand_bits_64 x) 2) (wshl 64 (expand_bits_64 y) 1)) (expand_bits_64 z).

(** round_down, round_up (Bits.h:147-152) at width [w] *)
Definition round_down (w n a : N) : N := N.land n (wnot w (wsub w a 1)).
Definition round_up (w n a : N) : N := N.land (wsub w (wadd w n a) 1) (wnot w (wsub w a 1)).

(** interleaved_bit_mask (Bits.h:155-160) at width [w]; the loop counter advances by [dim]; [fuel] = number of
    iterations allowed, [w] is enough for dim >= 1. Simplified: curBit is not reduced modulo 2^w. *)
Fixpoint ibm_loop (fuel : nat) (w dim cur mask : N) : N :=
  match fuel with
  | O => mask
  | S f => if cur <? w then ibm_loop f w dim (cur + dim) (N.lor mask (wshl w 1 cur)) else mask
  end.
Definition interleaved_bit_mask (w dim : N) : N := ibm_loop (N.to_nat w) w dim 0 0.

(** bit_length (Bits.h:166-171), recursion on N >> 1; [fuel] = word width *)
Fixpoint bit_length_f (fuel : nat) (n : N) : N :=
  match fuel with
  | O => 0
  | S f => if 0 <? n then bit_length_f f (N.shiftr n 1) + 1 else 0
  end.
Definition bit_length (w n : N) : N := bit_length_f (N.to_nat w) n.
(** bit_count (Bits.h:177-182) *)
Definition bit_count (w n : N) : N := if 0 <? n then bit_length w (n - 1) else 0.
(** next_2pow (Bits.h:184); None when the shift count reaches the width *)
Definition next_2pow (w n : N) : option N := cshl w 1 (bit_count w n).
(** next_power_of_two (Bits.h:190-198) *)
Definition next_power_of_two (i : N) : N :=
  let i := wsub 32 i 1 in
  let i := N.lor i (N.shiftr i 1) in
  let i := N.lor i (N.shiftr i 2) in
  let i := N.lor i (N.shiftr i 4) in
  let i := N.lor i (N.shiftr i 8) in
  let i := N.lor i (N.shiftr i 16) in
  wadd 32 i 1.

(** binary_reverse (Bits.h:200-204): recursion on data >> 1 with loc - 1; unsigned Integer of width [w]. [fuel] = w
    is enough; a negative [loc] would be an undefined shift but is never reached (loc is only used while data <> 0). *)
Fixpoint breverse_f (fuel : nat) (w data loc : N) : N :=
  match fuel with
  | O => 0
  | S f => if data =? 0 then 0
           else N.lor (wshl w (N.land data 1) loc) (breverse_f f w (N.shiftr data 1) (loc - 1))
  end.
Definition binary_reverse (w data : N) : N := breverse_f (N.to_nat w) w data (w - 1).

(** count_leading_zeros (Bits.h:206-212) *)
Fixpoint ctz_loop (fuel : nat) (data res : N) : N :=
  match fuel with
  | O => res
  | S f => if N.land data 1 =? 0 then ctz_loop f (N.shiftr data 1) (res + 1) else res
  end.
Definition count_leading_zeros (w data : N) : N :=
  let data := binary_reverse w data in
  if data =? 0 then w else ctz_loop (N.to_nat w) data 0.

(** bit_pack (Bits.h:214-236). [fuel]: one iteration per set bit of the mask, 64 is enough.  The result is returned as
    the 64-bit word before the final conversion, see [bit_pack]. *)
Fixpoint pack_loop (fuel : nat) (rmask uldata ulresult count : N) : option (N * N) :=
  match fuel with
  | O => if rmask =? 0 then Some (ulresult, count) else None
  | S f =>
    if rmask =? 0 then Some (ulresult, count) else
    let lz := count_leading_zeros 64 rmask in
    match cshr 64 uldata lz with
    | None => None
    | Some uldata =>
      let ulresult := wshl 64 ulresult 1 in
      let count := count + 1 in
      let ulresult := N.lor ulresult (N.land uldata 1) in
      let uldata := N.shiftr uldata 1 in
      match cshl 64 rmask (lz + 1) with
      | None => None
      | Some rmask => pack_loop f rmask uldata ulresult count
      end
    end
  end.
(** conversion of a 64-bit word to int (two's complement, implementation-defined before C++20) *)
Definition to_int (x : N) : Z :=
  let y := (Z.of_N x mod 2 ^ 32)%Z in if (y <? 2 ^ 31)%Z then y else (y - 2 ^ 32)%Z.
Definition bit_pack (mask data : N) : option Z :=
  match pack_loop 64 (binary_reverse 64 mask) data 0 0 with
  | None => None
  | Some (ulresult, count) =>
    match cshl 64 ulresult (64 - count) with
    | None => None
    | Some ulresult => Some (to_int (binary_reverse 64 ulresult))
    end
  end.

(** bit_spread (Bits.h:238-250); [dat] is a signed int shifted right arithmetically. *)
Fixpoint spread_loop (fuel : nat) (rmask : N) (dat : Z) (result : N) : option N :=
  match fuel with
  | O => if rmask =? 0 then Some result else None
  | S f =>
    if rmask =? 0 then Some result else
    let lz := count_leading_zeros 64 rmask + 1 in
    match cshl 64 result lz with
    | None => None
    | Some r =>
      let result := N.lor r (Z.to_N (Z.land dat 1)) in
      match cshl 64 rmask lz with
      | None => None
      | Some rmask => spread_loop f rmask (Z.shiftr dat 1) result
      end
    end
  end.
Definition bit_spread (mask : N) (data : Z) : option N :=
  match spread_loop 64 (binary_reverse 64 mask) data 0 with
  | None => None
  | Some result => cshr 64 (binary_reverse 64 result) (count_leading_zeros 64 mask)
  end.

(** num_bits_on (Bits.h:264-268); the final conversion to u8 is kept. *)
Definition num_bits_on (v : N) : N :=
  let v := wsub 64 v (N.land (N.shiftr v 1) 0x5555555555555555) in
  let v := wadd 64 (N.land v 0x3333333333333333) (N.land (N.shiftr v 2) 0x3333333333333333) in
  N.shiftr (wmul 64 (N.land (wadd 64 v (N.shiftr v 4)) 0x0F0F0F0F0F0F0F0F) 0x0101010101010101) 56 mod 2 ^ 8.
(** is_bit_on (Bits.h:270) *)
Definition is_bit_on (mask b : N) : bool := negb (N.land mask (wshl 64 1 (N.land b 63)) =? 0).
