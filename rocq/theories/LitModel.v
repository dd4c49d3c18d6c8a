(** The literals 12_th and 12_c of include/zensim/ZpcFunctional.hpp (411-436). The characters are given by their codes; None: a static_assert fails.
    max is deduce_numeric_max<size_t>() (210-224, SrModel). Arithmetic is unsigned and modular. *)
From Verif Require Import Prelude.
Open Scope Z_scope.

(** the width of size_t, the type of the values of ZpcFunctional.hpp 411-436 *)
Definition size_bits : Z := 64.
(** unsigned arithmetic modulo the width, for ZpcFunctional.hpp 411-436 *)
Definition wrap (z : Z) : Z := z mod 2 ^ size_bits.
(** 210-224 for size_t: ~0 *)
Definition size_max : Z := wrap (Z.lnot 0).
(** 415-426: index_impl; 39 is the apostrophe, 48 to 57 are the digits *)
Fixpoint index_impl (partial : Z) (c : list Z) : option Z :=
  match c with
  | [] => Some partial
  | c0 :: c =>
      if c0 =? 39 then index_impl partial c
      else if (48 <=? c0) && (c0 <=? 57) then
        if partial <? wrap (wrap (size_max - (c0 - 48)) / 10 + 1) then index_impl (wrap (wrap (partial * 10) + (c0 - 48))) c else None
      else None
  end.
(** 428-431, 434-436 *)
Definition literal (c : list Z) : option Z := index_impl 0 c.
