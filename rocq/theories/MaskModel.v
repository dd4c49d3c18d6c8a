(** Model of types/Mask.hpp (bit_mask<Size>, 64-bit words) and of the two intrinsics it uses (execution/Intrinsics.hpp).
    The mask is the list of its word_count words, each an N below 2^64.  An access outside [words] gives None. *)
From Verif Require Import Prelude BitsModel.
Local Open Scope N_scope.

(** word_count (Mask.hpp:21) *)
Definition word_count (size : nat) : nat := ((size + 64 - 1) / 64)%nat.

(** count_ones (Intrinsics.hpp:484-522): __builtin_popcountll, taken as the number of set bits. *)
Definition count_ones (w : N) : nat := length (filter (fun i => N.testbit w (N.of_nat i)) (seq 0 64)).
(** count_tailing_zeros (Intrinsics.hpp:525-570): 64 for 0, else __builtin_ctzl, taken as the least set position. *)
Definition ctz64 (w : N) : nat :=
  match find (fun i => N.testbit w (N.of_nat i)) (seq 0 64) with Some i => i | None => 64%nat end.

Definition wall : N := N.ones 64.                                     (* ~word_type(0) *)
(** word_type(1) << (n & word_mask) *)
Definition wbit (n : nat) : N := N.shiftl 1 (N.of_nat (n mod 64)).

(** read/modify word n >> 6 *)
Definition mod_word (m : list N) (n : nat) (f : N -> N) : option (list N) :=
  match nth_error m (n / 64) with Some w => upd m (n / 64) (f w) | None => None end.

(** setOff() / setOn() / set(bool) (150-164) and the constructors (27-28) *)
Definition set_all (m : list N) (on : bool) : list N := map (fun _ => if on then wall else 0) m.
Definition ctor_empty (size : nat) : list N := set_all (repeat 0 (word_count size)) false.
Definition ctor_bool (size : nat) (on : bool) : list N := set_all (repeat 0 (word_count size)) on.
(** setOn(n) (118-123; the atomic version 124-131 performs the same update in one step) *)
Definition setOn (m : list N) (n : nat) := mod_word m n (fun w => N.lor w (wbit n)).
(** setOff(n) (133-138, 139-146) *)
Definition setOff (m : list N) (n : nat) := mod_word m n (fun w => N.land w (wnot 64 (wbit n))).
(** set(n, On) (148) *)
Definition set_bit (m : list N) (n : nat) (on : bool) := if on then setOn m n else setOff m n.
(** toggle(n) (166-172) *)
Definition toggle (m : list N) (n : nat) := mod_word m n (fun w => N.lxor w (wbit n)).
(** toggle() (174-177), operator! (73-77) *)
Definition toggle_all (m : list N) : list N := map (wnot 64) m.

(** the word-by-word loops of &=, |=, -=, ^= (46-72) *)
Fixpoint zipw (f : N -> N -> N) (a b : list N) : list N :=
  match a, b with x :: a', y :: b' => f x y :: zipw f a' b' | _, _ => [] end.
Definition op_and := zipw N.land.
Definition op_or := zipw N.lor.
Definition op_sub := zipw (fun x y => N.land x (wnot 64 y)).
Definition op_xor := zipw N.lxor.

(** operator== (36-41) *)
Fixpoint mask_eqb (a b : list N) : bool :=
  match a, b with [], [] => true | x :: a', y :: b' => (x =? y) && mask_eqb a' b' | _, _ => false end.

(** isOn(n) (187-192) *)
Definition isOn (m : list N) (n : nat) : option bool :=
  match nth_error m (n / 64) with Some w => Some (negb (N.land w (wbit n) =? 0)) | None => None end.
(** isOn() (196-201), isOff() (203-208) *)
Definition allOn (m : list N) : bool := forallb (fun w => w =? wall) m.
Definition allOff (m : list N) : bool := forallb (fun w => w =? 0) m.
(** isConstant (212-218): Some b = returns true with isOn = b, None = returns false *)
Definition isConstant (m : list N) : option bool :=
  let w0 := hd 0 m in let on := w0 =? wall in
  if negb on && negb (w0 =? 0) then None
  else if forallb (fun w => w =? w0) (tl m) then Some on else None.

(** countOn (98-102), countOff (114-116) *)
Definition countOn (m : list N) : nat := fold_left (fun s w => (s + count_ones w)%nat) m 0%nat.
Definition countOff (size : nat) (m : list N) : Z := (Z.of_nat size - Z.of_nat (countOn m))%Z.
(** countOffset (105-111): n full words, then word n is read unconditionally *)
Fixpoint countOffset_loop (m : list N) (n : nat) (k : nat) (sum : nat) : option nat :=
  match n, m with
  | O, w :: _ => Some (sum + count_ones (N.land w (wsub 64 (wbit k) 1)))%nat
  | O, [] => None
  | S n', w :: m' => countOffset_loop m' n' k (sum + count_ones w)%nat
  | S _, [] => None
  end.
Definition countOffset (m : list N) (k : nat) : option nat := countOffset_loop m (k / 64) k 0.

(** findFirstOn (220-226), findFirstOff (228-234); [g] is the identity or complement *)
Fixpoint find_first (g : N -> N) (size : nat) (n : nat) (m : list N) : nat :=
  match m with
  | [] => size
  | w :: m' => if g w =? 0 then find_first g size (S n) m' else (n * 64 + ctz64 (g w))%nat
  end.
Definition findFirstOn (size : nat) (m : list N) : nat := find_first (fun w => w) size 0 m.
Definition findFirstOff (size : nat) (m : list N) : nat := find_first (wnot 64) size 0 m.

(** findNextOn (255-265), findNextOff (268-278) *)
Definition find_next (g : N -> N) (size : nat) (m : list N) (start : nat) : nat :=
  match nth_error m (start / 64) with
  | None => size
  | Some w =>
    let b := g w in
    if negb (N.land b (wbit start) =? 0) then start
    else
      let b := N.land b (wshl 64 wall (N.of_nat (start mod 64))) in
      if b =? 0 then find_first g size (S (start / 64)) (skipn (S (start / 64)) m)
      else (start / 64 * 64 + ctz64 b)%nat
  end.
Definition findNextOn := find_next (fun w => w).
Definition findNextOff := find_next (wnot 64).
