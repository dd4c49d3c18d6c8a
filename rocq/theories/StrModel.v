(** Model of types/SmallVector.hpp: BasicSmallString (lines 18-97).
    Characters are natural numbers, 0 is the terminator.  A [const char*] is the list of
    characters in memory from that address on; reading past it is undefined behaviour. *)
From Verif Require Import Prelude.

Section Str.
  (** Template parameter NBytes (SmallVector.hpp:18,21). *)
  Variable nbytes : nat.

  (** The copying loop shared by SmallVector.hpp:28 and 77/78:
      [for (; i + 1 != nbytes && src[j]; ++i, ++j) dst[i] = src[j];].
      [None]: out-of-range access (or out of fuel, excluded by the theorems). *)
  Fixpoint copy_loop (fuel i j : nat) (src dst : list nat) : option (nat * list nat) :=
    match fuel with
    | O => None
    | S f =>
      if i + 1 =? nbytes then Some (i, dst) else
      match nth_error src j with
      | None => None
      | Some c =>
        if c =? 0 then Some (i, dst) else
        match upd dst i c with
        | None => None
        | Some dst' => copy_loop f (S i) (S j) src dst'
        end
      end
    end.

  (** Default constructor (SmallVector.hpp:23-25). *)
  Definition str_empty : list nat := repeat 0 nbytes.

  (** Constructor from a C string (SmallVector.hpp:26-35). *)
  Definition str_of_cstr (tmp : list nat) : option (list nat) :=
    match copy_loop (S nbytes) 0 0 tmp (repeat 0 nbytes) with
    | None => None
    | Some (i, b) => upd b i 0
    end.

  (** The loop of SmallVector.hpp:42. *)
  Fixpoint fill_loop (k i : nat) (src dst : list nat) : option (list nat) :=
    match k with
    | O => Some dst
    | S k' =>
      match nth_error src i with
      | None => None
      | Some c => match upd dst i c with None => None | Some d => fill_loop k' (S i) src d end
      end
    end.

  (** Constructor from a string-like object with size() and operator[] (SmallVector.hpp:39-49).
      [garbage]: the buffer is not initialised beforehand. *)
  Definition str_of_str (garbage str : list nat) : option (list nat) :=
    let n := if length str <? nbytes then length str else nbytes - 1 in
    match upd garbage n 0 with None => None | Some b => fill_loop n 0 str b end.

  (** size() (SmallVector.hpp:68-72). *)
  Fixpoint size_loop (fuel i : nat) (buf : list nat) : option nat :=
    match fuel with
    | O => None
    | S f => match nth_error buf i with
             | None => None
             | Some c => if c =? 0 then Some i else size_loop f (S i) buf
             end
    end.
  Definition str_size (buf : list nat) : option nat := size_loop (S nbytes) 0 buf.

  (** operator==(const char_type[]) (SmallVector.hpp:57-63). *)
  Fixpoint eq_loop (fuel i sz : nat) (buf str : list nat) : option bool :=
    match fuel with
    | O => None
    | S f =>
      if i =? sz then
        (* line 61; [buf[i] || str[i]] reads str[i] only when buf[i] is 0 *)
        match nth_error buf i with
        | None => None
        | Some bc => if bc =? 0 then
            match nth_error str i with None => None | Some sc => Some (sc =? 0) end
          else Some false
        end
      else
        match nth_error str i with
        | None => None
        | Some sc =>
          if sc =? 0 then
            match nth_error buf i with
            | None => None
            | Some bc => Some (bc =? 0)
            end
          else match nth_error buf i with
               | None => None
               | Some bc => if bc =? sc then eq_loop f (S i) sz buf str else Some false
               end
        end
    end.
  Definition str_eq (buf str : list nat) : option bool :=
    match str_size buf with None => None | Some sz => eq_loop (S nbytes) 0 sz buf str end.

  (** operator+ (SmallVector.hpp:73-87). *)
  Definition str_plus (a b : list nat) : option (list nat) :=
    match copy_loop (S nbytes) 0 0 a (repeat 0 nbytes) with
    | None => None
    | Some (i, r) =>
      match copy_loop (S nbytes) i 0 b r with
      | None => None
      | Some (i', r') => upd r' i' 0
      end
    end.
End Str.
