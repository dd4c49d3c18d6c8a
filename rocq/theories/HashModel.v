(** Model of math/Hash.hpp:17-63 and execution/ConcurrencyPrimitive.cpp:32-51 (paths under /repo/include/zensim).
    Simplified: only the unsigned instantiations (u32, u64) of the [hash]/[unhash] templates. *)
From Verif Require Import Prelude BitsModel.
Local Open Scope N_scope.

(** hash, sizeof(T)==4 (Hash.hpp:41-44) *)
Definition hash32 (x : N) : N :=
  let x := wmul 32 (N.lxor (N.shiftr x 16) x) 0x45d9f3b in
  let x := wmul 32 (N.lxor (N.shiftr x 16) x) 0x45d9f3b in
  N.lxor (N.shiftr x 16) x.
(** unhash, sizeof(T)==4 (Hash.hpp:53-56) *)
Definition unhash32 (x : N) : N :=
  let x := wmul 32 (N.lxor (N.shiftr x 16) x) 0x119de1f3 in
  let x := wmul 32 (N.lxor (N.shiftr x 16) x) 0x119de1f3 in
  N.lxor (N.shiftr x 16) x.
(** hash, sizeof(T)==8 (Hash.hpp:45-48) *)
Definition hash64 (x : N) : N :=
  let x := wmul 64 (N.lxor x (N.shiftr x 30)) 0xbf58476d1ce4e5b9 in
  let x := wmul 64 (N.lxor x (N.shiftr x 27)) 0x94d049bb133111eb in
  N.lxor x (N.shiftr x 31).
(** unhash, sizeof(T)==8 (Hash.hpp:57-60) *)
Definition unhash64 (x : N) : N :=
  let x := wmul 64 (N.lxor (N.lxor x (N.shiftr x 31)) (N.shiftr x 62)) 0x319642b2d24d8ec3 in
  let x := wmul 64 (N.lxor (N.lxor x (N.shiftr x 27)) (N.shiftr x 54)) 0x96de1b173f119089 in
  N.lxor (N.lxor x (N.shiftr x 30)) (N.shiftr x 60).

(** hash_combine (Hash.hpp:17-27), 2, 4 and 8 byte seeds; [v] is the value converted to the seed's width.
    Simplified: for 2-byte seeds the sum is formed in (unsigned) int and truncated, the same modulo 2^16. *)
Definition hash_combine (w seed v : N) : N :=
  let (c, lr) := match w with 16 => (0x9e37, (3, 1)) | 32 => (0x9e3779b9, (6, 2)) | _ => (0x9e3779b97f4a7c15, (12, 4)) end in
  let (l, r) := (lr : N * N) in
  N.lxor seed (wadd w (wadd w (wadd w v c) (wshl w seed l)) (N.shiftr seed r)).

(** twang_mix64 (ConcurrencyPrimitive.cpp:32-41) *)
Definition twang_mix64 (key : N) : N :=
  let key := wadd 64 (wnot 64 key) (wshl 64 key 21) in
  let key := N.lxor key (N.shiftr key 24) in
  let key := wadd 64 (wadd 64 key (wshl 64 key 3)) (wshl 64 key 8) in
  let key := N.lxor key (N.shiftr key 14) in
  let key := wadd 64 (wadd 64 key (wshl 64 key 2)) (wshl 64 key 4) in
  let key := N.lxor key (N.shiftr key 28) in
  wadd 64 key (wshl 64 key 31).
(** twang_unmix64 (ConcurrencyPrimitive.cpp:42-51) *)
Definition twang_unmix64 (key : N) : N :=
  let key := wmul 64 key 4611686016279904257 in
  let key := N.lxor key (N.lxor (N.shiftr key 28) (N.shiftr key 56)) in
  let key := wmul 64 key 14933078535860113213 in
  let key := N.lxor key (N.lxor (N.lxor (N.lxor (N.shiftr key 14) (N.shiftr key 28)) (N.shiftr key 42)) (N.shiftr key 56)) in
  let key := wmul 64 key 15244667743933553977 in
  let key := N.lxor key (N.lxor (N.shiftr key 24) (N.shiftr key 48)) in
  wmul 64 (wadd 64 key 1) 9223367638806167551.
