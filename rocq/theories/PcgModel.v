(** The random number generator of include/zensim/math/probability/Random.hpp. 64 and 32 bit words are integers below 2^64 and 2^32. *)
From Coq Require Import ZArith List.
Import ListNotations.
Open Scope Z_scope.

(** 7-14: seed(). time holds the characters of __TIME__; the array also has the terminating zero, and the loop runs over all of it. *)
Definition seed (time : list Z) : Z := fold_left (fun shifted c => Z.lor (Z.shiftl shifted 8 mod 2 ^ 64) c) (time ++ [0]) 0.

(** 16-20: pcg32_random_t *)
Record rng := Rng { state : Z; inc : Z }.
Definition fresh (time : list Z) : rng := Rng 0 (seed time).

(** 26, 35: oldstate * 6364136223846793005 + (inc | 1) *)
Definition next (inc old : Z) : Z := (old * 6364136223846793005 + Z.lor inc 1) mod 2 ^ 64.
(** 27-29, 36-38 *)
Definition output (old : Z) : Z :=
  let xorshifted := Z.shiftr (Z.lxor (Z.shiftr old 18) old) 27 mod 2 ^ 32 in
  let rot := Z.shiftr old 59 in
  Z.lor (Z.shiftr xorshifted rot) (Z.shiftl xorshifted (Z.land (- rot mod 2 ^ 32) 31) mod 2 ^ 32).
(** 24-30: pcg32_random_r(), also operator() of line 42 *)
Definition call (g : rng) : Z * rng := (output (state g), Rng (next (inc g) (state g)) (inc g)).
(** 31-39: the static version with the state passed by reference *)
Definition call_static (st ic : Z) : Z * Z := (output st, next ic st).

(** 45-52: call_random *)
Fixpoint discard (i : nat) (g : rng) : rng := match i with O => g | S j => discard j (snd (call g)) end.
Definition call_random (time : list Z) (i : Z) : Z := fst (call (discard (Z.to_nat i) (fresh time))).
